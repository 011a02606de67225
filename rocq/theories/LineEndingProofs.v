(** Proofs about line endings. *)
From Coq Require Import List NArith Bool Arith Lia.
From Verif Require Import Text TextFacts LineEndingModel LineEndingSpec.
Import ListNotations.

(** One-pass version of the specification. *)
Fixpoint drop_cr (x : text) : text :=
  match x with
  | [] => []
  | c :: r =>
    match r with
    | d :: _ => if ((c =? CR)%N && (d =? LF)%N)%bool then drop_cr r else c :: drop_cr r
    | [] => [c]
    end
  end.

Definition crlf_head (c : char) (r : text) : bool :=
  match r with
  | d :: _ => ((c =? CR)%N && (d =? LF)%N)%bool
  | [] => false
  end.

Lemma drop_cr_cons : forall c r,
  drop_cr (c :: r) = if crlf_head c r then drop_cr r else c :: drop_cr r.
Proof. intros c [|d r]; reflexivity. Qed.

Lemma find_crlf_cons : forall c r,
  find_crlf (c :: r) = if crlf_head c r then Some 0 else option_map S (find_crlf r).
Proof. intros c [|d r]; [reflexivity|]. reflexivity. Qed.

Lemma crlf_head_true : forall c r,
  crlf_head c r = true -> exists r', c = CR /\ r = LF :: r'.
Proof.
  intros c [|d r] H; cbn in H; [discriminate|].
  apply andb_true_iff in H. destruct H as [H1 H2].
  apply N.eqb_eq in H1. apply N.eqb_eq in H2. subst. eauto.
Qed.

Lemma crlf_at_0 : forall c r, crlf_at (c :: r) 0 = crlf_head c r.
Proof. intros c [|d r]; reflexivity. Qed.

Lemma crlf_at_S : forall c r i, crlf_at (c :: r) (S i) = crlf_at r i.
Proof. reflexivity. Qed.

Lemma seq_S_map : forall n s, seq (S s) n = map S (seq s n).
Proof. intros. symmetry. apply seq_shift. Qed.

Lemma filter_map_comm : forall (A B : Type) (f : A -> B) (p : B -> bool) l,
  filter p (map f l) = map f (filter (fun x => p (f x)) l).
Proof.
  induction l as [|a l IH]; cbn; [reflexivity|].
  destruct (p (f a)); cbn; rewrite IH; reflexivity.
Qed.

Lemma without_drop : forall x, without_cr_of_crlf x = drop_cr x.
Proof.
  induction x as [|c r IH]; [reflexivity|].
  unfold without_cr_of_crlf in *. cbn [length seq filter].
  rewrite crlf_at_0, drop_cr_cons.
  rewrite seq_S_map, filter_map_comm.
  assert (map (fun i => nth i (c :: r) 0%N)
            (map S (filter (fun i => negb (crlf_at (c :: r) (S i))) (seq 0 (length r))))
          = drop_cr r) as E.
  { rewrite map_map. cbn [nth]. rewrite <- IH. reflexivity. }
  destruct (crlf_head c r); cbn [negb map]; rewrite E; reflexivity.
Qed.

(* find_crlf *)
Lemma find_crlf_None : forall x, find_crlf x = None -> drop_cr x = x.
Proof.
  induction x as [|c r IH]; intro H; [reflexivity|].
  rewrite find_crlf_cons in H. rewrite drop_cr_cons.
  destruct (crlf_head c r); [discriminate|].
  destruct (find_crlf r); [discriminate|]. rewrite IH; reflexivity.
Qed.

Lemma find_crlf_Some : forall x i, find_crlf x = Some i ->
  exists a b, x = a ++ CR :: LF :: b /\ length a = i /\
              drop_cr x = a ++ drop_cr (LF :: b).
Proof.
  induction x as [|c r IH]; intros i H; [discriminate|].
  rewrite find_crlf_cons in H. rewrite drop_cr_cons.
  destruct (crlf_head c r) eqn:E.
  - inversion H; subst. destruct (crlf_head_true _ _ E) as [r' [-> ->]].
    exists [], r'. auto.
  - destruct (find_crlf r) as [j|] eqn:F; [|discriminate].
    inversion H; subst. destruct (IH j eq_refl) as [a [b [-> [<- Hd]]]].
    exists (c :: a), b. cbn [length app]. rewrite Hd. auto.
Qed.

Lemma drop_cr_length : forall x, length (drop_cr x) <= length x.
Proof.
  induction x as [|c r IH]; [reflexivity|]. rewrite drop_cr_cons. cbn [length].
  destruct (crlf_head c r); cbn [length]; lia.
Qed.

Lemma skipn_app_exact : forall (A : Type) (a b : list A) n,
  n = length a -> skipn n (a ++ b) = b.
Proof.
  intros A a b n ->. rewrite skipn_app, skipn_all, Nat.sub_diag. reflexivity.
Qed.
Lemma firstn_app_exact : forall (A : Type) (a b : list A) n,
  n = length a -> firstn n (a ++ b) = a.
Proof.
  intros A a b n ->. rewrite firstn_app, firstn_all, Nat.sub_diag. cbn.
  apply app_nil_r.
Qed.

(* Buffer = finished prefix ++ gap ++ rest. *)
Lemma loop_spec : forall fuel done gap rest seen,
  length rest < fuel ->
  (seen = false -> gap = []) ->
  normalize_loop fuel (done ++ gap ++ rest) (length done) (length gap) seen
  = Some (done ++ drop_cr rest).
Proof.
  induction fuel as [|fuel IH]; intros done gap rest seen Hf Hseen; [lia|].
  cbn [normalize_loop].
  rewrite (skipn_app_exact _ done (gap ++ rest) (length done)) by reflexivity.
  rewrite (skipn_app_exact _ gap rest (length gap)) by reflexivity.
  rewrite (firstn_app_exact _ done (gap ++ rest) (length done)) by reflexivity.
  destruct (find_crlf rest) as [i|] eqn:F.
  - (* a pair was found *)
    destruct (find_crlf_Some _ _ F) as [a [b [-> [<- Hd]]]]. rewrite Hd.
    replace (length a + length gap - length gap) with (length a) by lia.
    unfold copy_within_front.
    replace (length a + length gap - length gap) with (length a) by lia.
    rewrite (skipn_app_exact _ gap _ (length gap)) by reflexivity.
    rewrite (firstn_app_exact _ a _ (length a)) by reflexivity.
    set (rest' := gap ++ a ++ CR :: LF :: b).
    assert (length rest' = length gap + length a + 2 + length b) as Hl.
    { unfold rest'. rewrite !app_length. cbn. lia. }
    (* what remains of the tail: a gap one longer and LF :: b *)
    assert (exists g', skipn (length a) rest' = g' ++ LF :: b /\ length g' = length gap + 1) as [g' [Hg Hgl]].
    { unfold rest'.
      replace (gap ++ a ++ CR :: LF :: b) with ((gap ++ a ++ [CR]) ++ LF :: b)
        by (rewrite <- !app_assoc; reflexivity).
      rewrite skipn_app.
      replace (length a - length (gap ++ a ++ [CR])) with 0
        by (rewrite !app_length; cbn; lia).
      cbn [skipn]. exists (skipn (length a) (gap ++ a ++ [CR])).
      split; [reflexivity|]. rewrite skipn_length, !app_length. cbn. lia. }
    rewrite Hg.
    assert (length (skipn (length done + length a) (done ++ a ++ g' ++ LF :: b)) =? length gap = false) as Hne.
    { rewrite app_assoc. rewrite skipn_app_exact by (rewrite app_length; lia).
      apply Nat.eqb_neq. rewrite app_length. cbn. lia. }
    rewrite Hne.
    replace (done ++ a ++ g' ++ LF :: b) with ((done ++ a) ++ g' ++ (LF :: b))
      by (rewrite <- app_assoc; reflexivity).
    replace (length done + length a) with (length (done ++ a)) by (rewrite app_length; lia).
    rewrite <- Hgl. rewrite IH.
    + rewrite <- app_assoc. reflexivity.
    + rewrite app_length in Hf. cbn in *. lia.
    + discriminate.
  - rewrite (find_crlf_None _ F).
    destruct seen.
    + (* no further pair: move the rest down and stop *)
      unfold copy_within_front. rewrite app_length.
      replace (length gap + length rest - length gap) with (length rest) by lia.
      rewrite (skipn_app_exact _ gap rest (length gap)) by reflexivity.
      rewrite firstn_all2 by lia.
      assert (length (skipn (length rest) (gap ++ rest)) = length gap) as Hs.
      { rewrite skipn_length, app_length. lia. }
      rewrite app_assoc.
      rewrite (skipn_app_exact _ (done ++ rest)) by (rewrite app_length; lia).
      rewrite Hs, Nat.eqb_refl. f_equal.
      apply firstn_app_exact. rewrite app_length, Hs. lia.
    + rewrite (Hseen eq_refl). reflexivity.
Qed.

Lemma normalize_total : forall x, normalize_opt x = Some (drop_cr x).
Proof.
  intro x. unfold normalize_opt.
  apply (loop_spec (S (S (length x))) [] [] x false); [lia|reflexivity].
Qed.

Lemma normalize_drop : forall x, normalize x = drop_cr x.
Proof. intro x. unfold normalize. rewrite normalize_total. reflexivity. Qed.

Lemma normalize_spec : forall x, normalize x = without_cr_of_crlf x.
Proof. intro x. rewrite normalize_drop, without_drop. reflexivity. Qed.

Lemma normalize_loop_returns : forall x, normalize_opt x = Some (without_cr_of_crlf x).
Proof. intro x. rewrite normalize_total, without_drop. reflexivity. Qed.

Lemma has_crlf_find : forall x, has_crlf x <-> find_crlf x <> None.
Proof.
  induction x as [|c r IH].
  - split; [intros [[|i] H]; discriminate|intro H; exfalso; apply H; reflexivity].
  - rewrite find_crlf_cons. split.
    + intros [[|i] H].
      * rewrite crlf_at_0 in H. rewrite H. discriminate.
      * rewrite crlf_at_S in H.
        destruct (crlf_head c r); [discriminate|].
        assert (find_crlf r <> None) as Hn by (apply IH; exists i; exact H).
        destruct (find_crlf r); [discriminate|congruence].
    + destruct (crlf_head c r) eqn:E.
      * intros _. exists 0. rewrite crlf_at_0. exact E.
      * intro H. destruct (find_crlf r) as [j|] eqn:F; [|cbn in H; congruence].
        destruct (proj2 IH) as [i Hi]; [congruence|].
        exists (S i). exact Hi.
Qed.

Lemma has_crlf_split : forall x, has_crlf x <-> exists a b, x = a ++ CR :: LF :: b.
Proof.
  intro x. split.
  - intro H. apply has_crlf_find in H.
    destruct (find_crlf x) as [i|] eqn:F; [|congruence].
    destruct (find_crlf_Some _ _ F) as [a [b [E _]]]. eauto.
  - intros [a [b ->]]. exists (length a).
    unfold crlf_at. rewrite !nth_error_app2 by lia.
    replace (length a - length a) with 0 by lia.
    replace (S (length a) - length a) with 1 by lia. reflexivity.
Qed.

Lemma infer_spec : forall x, infer x = Crlf <-> has_crlf x.
Proof.
  intro x. rewrite has_crlf_find. unfold infer.
  destruct (find_crlf x); split; congruence.
Qed.

Lemma normalize_no_crlf_id : forall x, ~ has_crlf x -> normalize x = x.
Proof.
  intros x H. rewrite normalize_drop. apply find_crlf_None.
  destruct (find_crlf x) eqn:E; [|reflexivity].
  exfalso. apply H. apply has_crlf_find. congruence.
Qed.

Lemma normalize_ref_spec : forall x, normalize_ref x = normalize x.
Proof.
  intro x. unfold normalize_ref. destruct (infer x) eqn:E; [|reflexivity].
  symmetry. apply normalize_no_crlf_id. rewrite <- infer_spec. congruence.
Qed.

(* Remaining CRLF *)
Lemma drop_cr_head_LF : forall x r, drop_cr x = LF :: r ->
  (exists y, x = LF :: y) \/ (exists y, x = CR :: LF :: y).
Proof.
  intros [|c [|d x]] r H; cbn in H.
  - discriminate.
  - inversion H; subst. left. eauto.
  - destruct ((c =? CR)%N && (d =? LF)%N)%bool eqn:E.
    + apply andb_true_iff in E. destruct E as [E1 E2].
      apply N.eqb_eq in E1. apply N.eqb_eq in E2. subst. right. eauto.
    + inversion H; subst. left. eauto.
Qed.

Lemma drop_cr_crlf : forall x, has_crlf (drop_cr x) <-> has_crcrlf x.
Proof.
  intro x. split.
  - rewrite has_crlf_split. intros [a [b H]]. revert a b H.
    induction x as [|c r IH]; intros a b H.
    + destruct a; discriminate.
    + rewrite drop_cr_cons in H. destruct (crlf_head c r) eqn:E.
      * destruct (IH _ _ H) as [u [v ->]]. exists (c :: u), v. reflexivity.
      * destruct a as [|c' a].
        -- cbn in H. inversion H as [[Hc Hr]]. subst c.
           destruct (drop_cr_head_LF _ _ Hr) as [[y ->]|[y ->]].
           ++ cbn in E. discriminate.
           ++ exists [], y. reflexivity.
        -- cbn in H. inversion H as [[Hc Hr]]. subst c'.
           destruct (IH _ _ Hr) as [u [v ->]]. exists (c :: u), v. reflexivity.
  - intros [a [b ->]]. apply has_crlf_split.
    induction a as [|c a IH].
    + exists [], (drop_cr b). cbn [app].
      rewrite drop_cr_cons. cbn [crlf_head N.eqb CR LF Pos.eqb andb].
      rewrite drop_cr_cons. cbn [crlf_head N.eqb CR LF Pos.eqb andb].
      rewrite drop_cr_cons. destruct b as [|d b]; reflexivity.
    + cbn [app]. rewrite drop_cr_cons.
      destruct IH as [u [v IH]]. rewrite IH.
      destruct (crlf_head c _); [exists u, v; reflexivity|exists (c :: u), v; reflexivity].
Qed.

Lemma normalize_leaves_crlf : forall x, has_crlf (normalize x) <-> has_crcrlf x.
Proof. intro x. rewrite normalize_drop. apply drop_cr_crlf. Qed.

Lemma normalize_idem : forall x, normalize (normalize x) = normalize x <-> ~ has_crcrlf x.
Proof.
  intro x. rewrite <- normalize_leaves_crlf. split.
  - intros H Hc. remember (normalize x) as y.
    assert (length (normalize y) < length y) as Hl.
    { rewrite normalize_drop. apply has_crlf_find in Hc.
      destruct (find_crlf y) as [i|] eqn:F; [|congruence].
      destruct (find_crlf_Some _ _ F) as [a [b [-> [_ ->]]]].
      rewrite !app_length. pose proof (drop_cr_length (LF :: b)). cbn [length] in *. lia. }
    rewrite H in Hl. lia.
  - apply normalize_no_crlf_id.
Qed.

(* to_crlf / normalize round trip *)
Lemma drop_cr_to_crlf : forall x, no_cr x -> drop_cr (to_crlf x) = x.
Proof.
  induction x as [|c r IH]; intro H; [reflexivity|].
  assert (no_cr r) as Hr by (intro I; apply H; right; exact I).
  cbn [to_crlf]. destruct (c =? LF)%N eqn:E.
  - apply N.eqb_eq in E. subst c.
    rewrite drop_cr_cons. cbn [crlf_head N.eqb CR LF Pos.eqb andb].
    rewrite drop_cr_cons. replace (crlf_head LF (to_crlf r)) with false.
    + rewrite IH by exact Hr. reflexivity.
    + destruct (to_crlf r); reflexivity.
  - rewrite drop_cr_cons. replace (crlf_head c (to_crlf r)) with false.
    + rewrite IH by exact Hr. reflexivity.
    + destruct (to_crlf r) as [|d q]; [reflexivity|]. cbn.
      destruct (c =? CR)%N eqn:E2; [|reflexivity].
      apply N.eqb_eq in E2. subst. exfalso. apply H. left. reflexivity.
Qed.

Lemma normalize_to_crlf : forall x, no_cr x -> normalize (to_crlf x) = x.
Proof. intros x H. rewrite normalize_drop. apply drop_cr_to_crlf. exact H. Qed.

(* line endings *)
Lemma line_endings_from_crlf : forall x p,
  In Crlf (line_endings_from p x) <->
  has_crlf x \/ (p = true /\ exists y, x = LF :: y).
Proof.
  induction x as [|c r IH]; intro p.
  - cbn. split; [tauto|]. intros [[[|i] H]|[_ [y H]]]; discriminate.
  - cbn [line_endings_from]. destruct (c =? LF)%N eqn:E.
    + apply N.eqb_eq in E. subst c. cbn [In]. rewrite IH. split.
      * intros [H|[H|[H _]]]; [|left|discriminate].
        -- destruct p; [|discriminate]. right. eauto.
        -- destruct H as [i H]. exists (S i). exact H.
      * intros [[i H]|[-> _]]; [|left; reflexivity].
        destruct i as [|i].
        -- rewrite crlf_at_0 in H. destruct r; discriminate.
        -- right. left. exists i. exact H.
    + rewrite IH. split.
      * intros [[i H]|[H [y ->]]].
        -- left. exists (S i). exact H.
        -- left. exists 0. rewrite crlf_at_0. cbn. rewrite H. reflexivity.
      * intros [[i H]|[-> [y H]]].
        -- destruct i as [|i].
           ++ rewrite crlf_at_0 in H. destruct (crlf_head_true _ _ H) as [r' [-> ->]].
              right. split; [reflexivity|eauto].
           ++ left. exists i. exact H.
        -- inversion H; subst. discriminate.
Qed.

Lemma infer_In : forall x, infer x = Crlf <-> In Crlf (line_endings x).
Proof.
  intro x. rewrite infer_spec. unfold line_endings. rewrite line_endings_from_crlf.
  split; [tauto|]. intros [H|[H _]]; [exact H|discriminate].
Qed.

Lemma first_le_hd : forall x p, first_line_ending_from p x = hd_error (line_endings_from p x).
Proof.
  induction x as [|c r IH]; intro p; [reflexivity|].
  cbn. destruct (c =? LF)%N; [reflexivity|]. apply IH.
Qed.

Lemma infer_uniform : forall x,
  (forall e f, In e (line_endings x) -> In f (line_endings x) -> e = f) ->
  infer x = documented_auto x.
Proof.
  intros x Hu. unfold documented_auto, first_line_ending. rewrite first_le_hd.
  fold (line_endings x). destruct (infer x) eqn:E.
  - destruct (line_endings x) as [|e l] eqn:El; cbn; [reflexivity|].
    destruct e; [reflexivity|].
    assert (infer x = Crlf) as Hx; [|congruence].
    apply infer_In. rewrite El. left. reflexivity.
  - apply infer_In in E. destruct (line_endings x) as [|e l]; [destruct E|].
    cbn. apply Hu; [exact E|left; reflexivity].
Qed.

(** The two rules differ exactly on files that start with LF and contain CRLF. *)
Lemma infer_documented_iff : forall x,
  infer x = documented_auto x <->
  ~ (first_line_ending x = Some Lf /\ In Crlf (line_endings x)).
Proof.
  intro x. unfold documented_auto. split.
  - intros H [H1 H2]. rewrite H1 in H. apply infer_In in H2. congruence.
  - intro H. destruct (first_line_ending x) as [[|]|] eqn:F.
    + destruct (infer x) eqn:E; [reflexivity|].
      exfalso. apply H. split; [reflexivity|]. apply infer_In. exact E.
    + apply infer_In. unfold first_line_ending in F. rewrite first_le_hd in F.
      fold (line_endings x) in F. destruct (line_endings x); [discriminate|].
      cbn in F. inversion F. left. reflexivity.
    + destruct (infer x) eqn:E; [reflexivity|].
      apply infer_In in E. unfold first_line_ending in F. rewrite first_le_hd in F.
      fold (line_endings x) in F. destruct (line_endings x); [destruct E|discriminate].
Qed.

Lemma drop_cr_LF : forall a, drop_cr (LF :: a) = LF :: drop_cr a.
Proof. intro a. rewrite drop_cr_cons. destruct a; reflexivity. Qed.
Lemma drop_cr_CRLF : forall a, drop_cr (CR :: LF :: a) = LF :: drop_cr a.
Proof. intro a. rewrite drop_cr_cons. cbn [crlf_head N.eqb CR LF Pos.eqb andb]. apply drop_cr_LF. Qed.
Lemma drop_cr_other : forall c a, c <> CR -> drop_cr (c :: a) = c :: drop_cr a.
Proof.
  intros c a H. rewrite drop_cr_cons. replace (crlf_head c a) with false; [reflexivity|].
  destruct a; [reflexivity|]. cbn. replace (c =? CR)%N with false; [reflexivity|].
  symmetry. apply N.eqb_neq. exact H.
Qed.

Lemma same_modulo_normalize : forall a b, same_modulo_line_ends a b -> normalize a = normalize b.
Proof.
  intros a b H. rewrite !normalize_drop. induction H as [|c a b Hc Hl H IH|a b e f He Hf H IH].
  - reflexivity.
  - rewrite !drop_cr_other by exact Hc. rewrite IH. reflexivity.
  - cbn [In] in He, Hf.
    destruct He as [<-|[<-|[]]]; destruct Hf as [<-|[<-|[]]]; cbn [app];
      rewrite ?drop_cr_CRLF, ?drop_cr_LF, IH; reflexivity.
Qed.

Lemma finalize_explicit : forall windows s1 s2,
  finalize windows SLf s1 = Lf /\ finalize windows SCrlf s1 = Crlf /\
  finalize windows SNative s1 = finalize windows SNative s2 /\
  (finalize windows SNative s1 = Crlf <-> windows = true).
Proof. intros [|] s1 s2; cbn; intuition congruence. Qed.

Lemma first_rule_witness : exists source,
  finalize false SAuto source <> documented_auto source.
Proof. exists [97%N; LF; 98%N; CR; LF]. vm_compute. discriminate. Qed.
