From Coq Require Import List NArith ZArith Bool Arith Lia.
From Verif Require Import Text TextFacts LineEndingModel LineEndingSpec LineEndingProofs
  LineIndexModel LineIndexSpec LineIndexProofs DocsModel DocsSpec.
Import ListNotations.

(* two line tables agree on the lines before [n] *)
Definition agree (n : nat) (a b : line_index) : Prop :=
  forall k, k < n -> nth_error (newlines a) k = nth_error (newlines b) k /\ wide_get a k = wide_get b k.

Lemma agree_refl : forall n a, agree n a a.
Proof. intros n a k _. split; reflexivity. Qed.

Lemma agree_trans : forall n a b c, agree n a b -> agree n b c -> agree n a c.
Proof. intros n a b c H1 H2 k Hk. destruct (H1 k Hk), (H2 k Hk). split; congruence. Qed.

Lemma agree_le : forall n m a b, m <= n -> agree n a b -> agree m a b.
Proof. intros n m a b Hm H k Hk. apply H. lia. Qed.

Lemma agree_offset : forall enc n a b p, agree n a b -> pos_line p < n ->
  offset_from_position enc a p = offset_from_position enc b p.
Proof.
  intros enc n a b p H Hp. unfold offset_from_position, li_offset, line_col_from_position.
  destruct (H _ Hp) as [H1 H2]. destruct enc; cbn [lc_line lc_col]; rewrite ?H1, ?H2; reflexivity.
Qed.

Lemma agree_range : forall enc n a b r, agree n a b -> pos_line (r_start r) < n -> pos_line (r_end r) < n ->
  text_range enc a r = text_range enc b r.
Proof.
  intros enc n a b r H H1 H2. unfold text_range.
  rewrite (agree_offset _ _ _ _ _ H H1), (agree_offset _ _ _ _ _ H H2). reflexivity.
Qed.

(* every line before the end of a complete-line prefix *)
Lemma line_split : forall p k, k < count_lf p -> exists q r, p = q ++ r /\ count_lf q = k /\ after_last_lf q = [] /\ count_lf r <> 0.
Proof.
  induction p as [|c p IH] using rev_ind; intros k Hk; [cbn in Hk; lia|].
  rewrite count_lf_app in Hk. cbn in Hk.
  destruct (Nat.lt_ge_cases k (count_lf p)) as [H|H].
  - destruct (IH k H) as [q [r [-> [H1 [H2 H3]]]]]. exists q, (r ++ [c]). rewrite <- app_assoc, count_lf_app.
    repeat split; auto. lia.
  - destruct (c =? LF)%N eqn:E; cbn in Hk; [|lia]. assert (k = count_lf p) by lia. subst k.
    destruct (after_last_lf_suffix p) as [q [H1 [H2 [H3 H4]]]]. exists q, (after_last_lf p ++ [c]).
    rewrite app_assoc, <- H1. split; [reflexivity|]. split; [exact H3|]. split.
    + destruct H4 as [->|[q' ->]]; [reflexivity|]. rewrite after_last_lf_snoc. reflexivity.
    + rewrite count_lf_app. cbn. rewrite E. lia.
Qed.

Lemma head_line_app : forall a b, count_lf a <> 0 -> head_line (a ++ b) = head_line a.
Proof.
  induction a as [|c a IH]; intros b H; cbn in *; [lia|].
  destruct (c =? LF)%N; [reflexivity|]. f_equal. apply IH. lia.
Qed.

Lemma agree_prefix : forall p x y, agree (count_lf p) (line_index_new (p ++ x)) (line_index_new (p ++ y)).
Proof.
  intros p x y k Hk. destruct (line_split p k Hk) as [q [r [-> [<- [H2 H3]]]]].
  rewrite <- !app_assoc. rewrite !nth_newlines, !wide_get_at, !head_line_app by exact H3. split; reflexivity.
Qed.

(* the offset of a position is not before the start of its line *)
Lemma offset_ge_line : forall enc t p o, offset_from_position enc (line_index_new t) p = Some o ->
  exists a b, t = a ++ b /\ count_lf a = pos_line p /\ after_last_lf a = [] /\ blen a <= o.
Proof.
  intros enc t p o H. unfold offset_from_position, li_offset in H.
  assert (lc_line (line_col_from_position enc (line_index_new t) p) = pos_line p) as E by (destruct enc; reflexivity).
  rewrite E in H. destruct (nth_error (newlines (line_index_new t)) (pos_line p)) as [s|] eqn:En; [|discriminate].
  injection H as <-.
  assert (pos_line p <= count_lf t) as Hl.
  { assert (pos_line p < length (newlines (line_index_new t))) as Q by (apply nth_error_Some; congruence).
    change (newlines (line_index_new t)) with (st_newlines (run t)) in Q.
    destruct (run_facts t) as [_ [_ [_ [_ [H5 _]]]]]. lia. }
  assert (exists a b, t = a ++ b /\ count_lf a = pos_line p /\ after_last_lf a = []) as [a [b [-> [Hc Ha]]]].
  { apply Nat.le_lteq in Hl. destruct Hl as [Hl|Hl].
    - destruct (line_split t _ Hl) as [q [r [-> [H1 [H2 _]]]]]. eauto.
    - destruct (after_last_lf_suffix t) as [q [H1 [_ [H3 H4]]]]. exists q, (after_last_lf t). split; [exact H1|].
      split; [lia|]. destruct H4 as [->|[q' ->]]; [reflexivity|]. rewrite after_last_lf_snoc. reflexivity. }
  exists a, b. split; [reflexivity|]. split; [exact Hc|]. split; [exact Ha|].
  rewrite <- Hc, nth_newlines, Ha in En. injection En as <-. cbn. lia.
Qed.

Lemma replace_range_prefix : forall t s e ins t' a b, t = a ++ b -> blen a <= s ->
  replace_range t s e ins = Some t' -> exists b', t' = a ++ b'.
Proof.
  intros t s e ins t' a b -> Hs H. unfold replace_range in H.
  destruct (split_at s (a ++ b)) as [[x y]|] eqn:E; [|discriminate].
  destruct (split_at (e - s) y) as [[y1 y2]|]; [|discriminate]. injection H as <-.
  apply split_at_sound in E. destruct E as [E <-].
  destruct (app_split_blen _ _ _ _ E Hs) as [m [-> _]]. exists (m ++ ins ++ y2). rewrite <- app_assoc. reflexivity.
Qed.

Lemma change_keeps_lines : forall enc t r s e ins t',
  text_range enc (line_index_new t) r = Val (s, e) -> replace_range t s e ins = Some t' ->
  agree (pos_line (r_start r)) (line_index_new t) (line_index_new t').
Proof.
  intros enc t r s e ins t' Hr Ht. unfold text_range in Hr.
  destruct (offset_from_position enc (line_index_new t) (r_start r)) as [o|] eqn:Eo; [|discriminate].
  destruct (offset_from_position enc (line_index_new t) (r_end r)) as [o2|]; [|discriminate].
  destruct (o <=? o2); [|discriminate]. injection Hr as <- <-.
  destruct (offset_ge_line _ _ _ _ Eo) as [a [b [-> [Hc [_ Hb]]]]].
  destruct (replace_range_prefix _ _ _ _ _ a b eq_refl Hb Ht) as [b' ->].
  rewrite <- Hc. apply agree_prefix.
Qed.

Definition incremental (c : change) : Prop := c_range c <> None.

Lemma incremental_correct : forall enc cs t li last,
  Forall ordered cs -> Forall incremental cs ->
  match last with None => li = line_index_new t | Some l => agree l li (line_index_new t) end ->
  option_map fst (apply_incremental enc cs t li last) = one_by_one enc t cs.
Proof.
  intros enc cs. induction cs as [|c cs IH]; intros t li last Ho Hi Ha; [reflexivity|].
  inversion Ho as [|? ? Ho1 Ho2]; subst. inversion Hi as [|? ? Hi1 Hi2]; subst.
  cbn [apply_incremental one_by_one]. unfold one_change. unfold ordered in Ho1. unfold incremental in Hi1.
  destruct (c_range c) as [r|]; [|contradiction].
  set (stale := match last with None => false | Some l => l <=? pos_line (r_end r) end).
  set (li' := if stale then line_index_new t else li).
  assert (text_range enc li' r = text_range enc (line_index_new t) r) as ->.
  { unfold li', stale. destruct last as [l|]; [|rewrite Ha; reflexivity].
    destruct (Nat.leb_spec l (pos_line (r_end r))); [reflexivity|].
    apply agree_range with (n := l); [exact Ha|lia|lia]. }
  destruct (text_range enc (line_index_new t) r) as [[s e]| |] eqn:Er; [|reflexivity|reflexivity].
  destruct (replace_range t s e (normalize (c_text c))) as [t'|] eqn:Et; [|reflexivity].
  apply IH; [assumption|assumption|].
  apply agree_trans with (b := line_index_new t); [|eapply change_keeps_lines; eauto].
  unfold li', stale. destruct last as [l|]; [|rewrite Ha; apply agree_refl].
  destruct (Nat.leb_spec l (pos_line (r_end r))); [apply agree_refl|].
  apply agree_le with (n := l); [lia|exact Ha].
Qed.

Lemma rposition_spec : forall (A : Type) (f : A -> bool) l,
  match rposition f l with
  | Some i => exists pre x post, l = pre ++ x :: post /\ length pre = i /\ f x = true /\ Forall (fun y => f y = false) post
  | None => Forall (fun y => f y = false) l
  end.
Proof.
  intros A f. induction l as [|x l IH]; cbn [rposition]; [constructor|].
  destruct (rposition f l) as [i|].
  - destruct IH as [pre [y [post [-> [H1 [H2 H3]]]]]]. exists (x :: pre), y, post. cbn. auto.
  - destruct (f x) eqn:E; [exists [], x, l; auto|constructor; assumption].
Qed.

Lemma not_full_incremental : forall l, Forall (fun y => is_full y = false) l -> Forall incremental l.
Proof.
  intros l H. eapply Forall_impl; [|exact H]. intros c Hc. unfold is_full in Hc. unfold incremental.
  destruct (c_range c); [discriminate|discriminate].
Qed.

Definition result {A B} (x : option (A * B)) : option A := option_map fst x.

Lemma one_by_one_app : forall enc a t b,
  one_by_one enc t (a ++ b) = match one_by_one enc t a with None => None | Some t' => one_by_one enc t' b end.
Proof.
  intros enc a. induction a as [|c a IH]; intros t b; [reflexivity|]. cbn.
  destruct (one_change enc t c); [apply IH|reflexivity].
Qed.

Lemma full_start : forall enc t t0 pre full post li, c_range full = None ->
  Forall (fun y => is_full y = false) post -> Forall ordered post ->
  result (apply_incremental enc post (normalize (c_text full)) li (Some 0)) = one_by_one enc (normalize (c_text full)) post /\
  (one_by_one enc t (pre ++ full :: post) = Some t0 ->
   one_by_one enc (normalize (c_text full)) post = Some t0).
Proof.
  intros enc t t0 pre full post li Hf Hp Ho. split.
  - apply incremental_correct; [exact Ho|apply not_full_incremental; exact Hp|]. intros k Hk. lia.
  - rewrite one_by_one_app. destruct (one_by_one enc t pre); [|discriminate]. cbn. unfold one_change. rewrite Hf. auto.
Qed.

Lemma batch_correct : forall enc t cs t', Forall ordered cs ->
  one_by_one enc t cs = Some t' ->
  result (apply_text_changes enc t cs (line_index_new t)) = Some t'.
Proof.
  intros enc t cs t' Ho H. unfold apply_text_changes. pose proof (rposition_spec _ is_full cs) as Hr.
  destruct (rposition is_full cs) as [i|].
  - destruct Hr as [pre [x [post [-> [<- [Hx Hp]]]]]].
    rewrite nth_error_app2, Nat.sub_diag by lia. cbn [nth_error].
    replace (skipn (length pre + 1) (pre ++ x :: post)) with post.
    2: { rewrite skipn_app. rewrite skipn_all2 by lia. replace (length pre + 1 - length pre) with 1 by lia. reflexivity. }
    assert (c_range x = None) as Hx' by (unfold is_full in Hx; destruct (c_range x); [discriminate|reflexivity]).
    assert (Forall ordered post) as Hop by (apply Forall_app in Ho; destruct Ho as [_ Ho]; inversion Ho; assumption).
    destruct (full_start enc t t' pre x post (line_index_new t) Hx' Hp Hop) as [-> H2]. apply H2. exact H.
  - unfold result. rewrite incremental_correct; [exact H|exact Ho|apply not_full_incremental; exact Hr|reflexivity].
Qed.

Lemma batch_incremental : forall enc t cs, Forall ordered cs -> Forall incremental cs ->
  result (apply_text_changes enc t cs (line_index_new t)) = one_by_one enc t cs.
Proof.
  intros enc t cs Ho Hi. unfold apply_text_changes. pose proof (rposition_spec _ is_full cs) as Hr.
  destruct (rposition is_full cs) as [i|].
  - destruct Hr as [pre [x [post [-> [_ [Hx _]]]]]]. apply Forall_app in Hi. destruct Hi as [_ Hi].
    inversion Hi as [|? ? Hx2 _]; subst. unfold is_full in Hx. unfold incremental in Hx2.
    destruct (c_range x); [discriminate|contradiction].
  - apply incremental_correct; [exact Ho|exact Hi|reflexivity].
Qed.

Lemma rposition_full : forall pre full post, c_range full = None ->
  exists i, rposition is_full (pre ++ full :: post) = Some (length pre + i) /\
    rposition is_full (full :: post) = Some i.
Proof.
  intros pre full post Hf.
  assert (exists i, rposition is_full (full :: post) = Some i) as [i Hi].
  { cbn. destruct (rposition is_full post); [eauto|]. unfold is_full. rewrite Hf. eauto. }
  exists i. split; [|exact Hi]. induction pre as [|c pre IH]; [exact Hi|].
  cbn [app rposition length]. rewrite IH. reflexivity.
Qed.

Lemma full_discards : forall enc t t2 pre pre2 full post li li2, c_range full = None -> Forall ordered post ->
  result (apply_text_changes enc t (pre ++ full :: post) li)
  = result (apply_text_changes enc t2 (pre2 ++ full :: post) li2).
Proof.
  intros enc t t2 pre pre2 full post li li2 Hf Ho.
  assert (forall t pre li, exists i,
    rposition is_full (full :: post) = Some i /\
    apply_text_changes enc t (pre ++ full :: post) li =
    match nth_error (full :: post) i with
    | None => None
    | Some f => apply_incremental enc (skipn (i + 1) (full :: post)) (normalize (c_text f)) li (Some 0)
    end) as Hall.
  { intros u p l. unfold apply_text_changes. destruct (rposition_full p full post Hf) as [i [H1 H2]]. exists i.
    split; [exact H2|]. rewrite H1. rewrite nth_error_app2 by lia. replace (length p + i - length p) with i by lia.
    replace (skipn (length p + i + 1) (p ++ full :: post)) with (skipn (i + 1) (full :: post)); [reflexivity|].
    rewrite skipn_app. rewrite (skipn_all2 (n:=length p + i + 1) p) by lia. replace (length p + i + 1 - length p) with (i + 1) by lia. reflexivity. }
  destruct (Hall t pre li) as [i [H1 ->]]. destruct (Hall t2 pre2 li2) as [i2 [H2 ->]].
  rewrite H1 in H2. injection H2 as <-.
  pose proof (rposition_spec _ is_full (full :: post)) as Hr. rewrite H1 in Hr.
  destruct Hr as [a [x [b [E [<- [Hx Hb]]]]]]. rewrite E.
  rewrite nth_error_app2, Nat.sub_diag by lia. cbn [nth_error].
  replace (skipn (length a + 1) (a ++ x :: b)) with b.
  2: { rewrite skipn_app. rewrite skipn_all2 by lia. replace (length a + 1 - length a) with 1 by lia. reflexivity. }
  assert (Forall ordered b) as Hob.
  { assert (Forall ordered (full :: post)) as Q by (constructor; [unfold ordered; rewrite Hf; exact I|exact Ho]).
    rewrite E in Q. apply Forall_app in Q. destruct Q as [_ Q]. inversion Q; assumption. }
  assert (c_range x = None) as Hx' by (unfold is_full in Hx; destruct (c_range x); [discriminate|reflexivity]).
  destruct (full_start enc t t [] x b li Hx' Hb Hob) as [-> _].
  destruct (full_start enc t t [] x b li2 Hx' Hb Hob) as [-> _]. reflexivity.
Qed.

Lemma full_then_later : forall enc t pre full post li, c_range full = None -> Forall ordered post ->
  Forall incremental post ->
  result (apply_text_changes enc t (pre ++ full :: post) li) = one_by_one enc (normalize (c_text full)) post.
Proof.
  intros enc t pre full post li Hf Ho Hi.
  rewrite (full_discards enc t t pre [] full post li li Hf Ho). cbn [app].
  assert (Forall (fun y => is_full y = false) post) as Hp.
  { eapply Forall_impl; [|exact Hi]. intros c Hc. unfold is_full. unfold incremental in Hc. destruct (c_range c); [reflexivity|contradiction]. }
  unfold apply_text_changes.
  assert (rposition is_full (full :: post) = Some 0) as ->.
  { cbn. pose proof (rposition_spec _ is_full post) as Hr. destruct (rposition is_full post).
    - destruct Hr as [a [x [b [-> [_ [Hx _]]]]]]. apply Forall_app in Hp. destruct Hp as [_ Hp]. inversion Hp; subst. congruence.
    - unfold is_full. rewrite Hf. reflexivity. }
  cbn [nth_error skipn Nat.add]. destruct (full_start enc t t [] full post li Hf Hp Ho) as [-> _]. reflexivity.
Qed.

Lemma from_zero : forall enc cs t li,
  result (apply_incremental enc cs t li (Some 0)) = result (apply_incremental enc cs t (line_index_new t) None).
Proof.
  intros enc [|c cs] t li; [reflexivity|]. cbn [apply_incremental]. destruct (c_range c); reflexivity.
Qed.

Lemma full_only_later : forall enc t pre full post li, c_range full = None -> Forall incremental post ->
  result (apply_text_changes enc t (pre ++ full :: post) li)
  = result (apply_text_changes enc (normalize (c_text full)) post (line_index_new (normalize (c_text full)))).
Proof.
  intros enc t pre full post li Hf Hi.
  assert (Forall (fun y => is_full y = false) post) as Hp.
  { eapply Forall_impl; [|exact Hi]. intros c Hc. unfold is_full. unfold incremental in Hc. destruct (c_range c); [reflexivity|contradiction]. }
  assert (rposition is_full post = None) as Hn.
  { pose proof (rposition_spec _ is_full post) as Hr. destruct (rposition is_full post); [|reflexivity].
    destruct Hr as [a [x [b [-> [_ [Hx _]]]]]]. apply Forall_app in Hp. destruct Hp as [_ Hp]. inversion Hp; subst. congruence. }
  unfold apply_text_changes. rewrite Hn.
  destruct (rposition_full pre full post Hf) as [i [-> H2]].
  cbn [rposition] in H2. rewrite Hn in H2. unfold is_full in H2. rewrite Hf in H2. injection H2 as <-.
  rewrite Nat.add_0_r, nth_error_app2, Nat.sub_diag by lia. cbn [nth_error].
  replace (skipn (length pre + 1) (pre ++ full :: post)) with post.
  2: { rewrite skipn_app. rewrite skipn_all2 by lia. replace (length pre + 1 - length pre) with 1 by lia. reflexivity. }
  apply from_zero.
Qed.

(* the editor's positions *)
Lemma paired_app : forall a b, paired a -> paired b -> paired (a ++ b).
Proof. intros a b H Hb. induction H; cbn; [exact Hb|constructor; assumption|constructor; assumption]. Qed.

Lemma normalize_app : forall a b, paired a -> normalize (a ++ b) = normalize a ++ normalize b.
Proof.
  intros a b H. rewrite !normalize_drop. induction H as [|c r Hc H IH|r H IH]; cbn [app].
  - reflexivity.
  - rewrite !drop_cr_other by exact Hc. rewrite IH. reflexivity.
  - rewrite !drop_cr_CRLF, IH. reflexivity.
Qed.

Lemma normalize_cons : forall c r, c <> CR -> normalize (c :: r) = c :: normalize r.
Proof. intros. rewrite !normalize_drop. apply drop_cr_other. assumption. Qed.
Lemma normalize_end : forall r, normalize (CR :: LF :: r) = LF :: normalize r.
Proof. intros. rewrite !normalize_drop. apply drop_cr_CRLF. Qed.

Lemma editor_position_spec : forall enc pre, paired pre -> forall line col,
  editor_position enc pre line col =
  {| pos_line := line + count_lf (normalize pre);
     pos_char := if Nat.eqb (count_lf (normalize pre)) 0 then col + units enc (normalize pre)
                 else units enc (after_last_lf (normalize pre)) |}.
Proof.
  intros enc pre H. induction H as [|c r Hc H IH|r H IH]; intros line col.
  - cbn. rewrite !Nat.add_0_r. reflexivity.
  - rewrite normalize_cons by exact Hc. cbn [editor_position]. cbn [count_lf after_last_lf].
    destruct (c =? LF)%N eqn:E.
    + rewrite IH. cbn [Nat.add Nat.eqb]. f_equal; [lia|].
      destruct (count_lf (normalize r) =? 0); reflexivity.
    + destruct (c =? CR)%N eqn:E2; [apply N.eqb_eq in E2; contradiction|].
      rewrite IH. cbn [Nat.add units]. f_equal.
      destruct (count_lf (normalize r) =? 0); [lia|reflexivity].
  - rewrite normalize_end. cbn [editor_position]. cbn [N.eqb CR LF Pos.eqb].
    change (if (LF =? LF)%N then editor_position enc r (line + 1) 0 else editor_position enc (LF :: r) (line + 1) 0)
      with (editor_position enc r (line + 1) 0).
    rewrite IH. cbn [count_lf after_last_lf]. rewrite N.eqb_refl. cbn [Nat.add Nat.eqb]. f_equal; [lia|].
    destruct (count_lf (normalize r) =? 0); reflexivity.
Qed.

Lemma editor_position_normalized : forall enc pre, paired pre ->
  editor_position enc pre 0 0 = position_after enc (normalize pre).
Proof.
  intros enc pre H. rewrite (editor_position_spec enc pre H). unfold position_after. cbn [Nat.add]. f_equal.
  destruct (Nat.eqb_spec (count_lf (normalize pre)) 0) as [E|E]; [|reflexivity].
  rewrite after_last_lf_none by exact E. reflexivity.
Qed.

Lemma replace_range_at : forall a m b ins,
  replace_range (a ++ m ++ b) (blen a) (blen (a ++ m)) ins = Some (a ++ ins ++ b).
Proof.
  intros. unfold replace_range. rewrite split_at_app, blen_app.
  replace (blen a + blen m - blen a) with (blen m) by lia. rewrite split_at_app. reflexivity.
Qed.

Lemma tidy_one : forall enc t c t', tidy_change enc t c t' -> paired t ->
  one_change enc (normalize t) c = Some (normalize t') /\ ordered c /\ paired t'.
Proof.
  intros enc t c t' H Hp. destruct H as [pre mid post x H1 H2 H3 H4|t x Hx].
  - unfold one_change, ordered. cbn [c_range c_text r_start r_end].
    rewrite (editor_position_normalized enc pre H1), (editor_position_normalized enc (pre ++ mid)) by (apply paired_app; assumption).
    rewrite !(normalize_app pre), (normalize_app mid post), (normalize_app x) by assumption.
    unfold text_range. cbn [r_start r_end]. rewrite offset_from_position_spec.
    rewrite app_assoc, offset_from_position_spec, blen_app.
    destruct (Nat.leb_spec (blen (normalize pre)) (blen (normalize pre) + blen (normalize mid))); [|lia].
    rewrite <- blen_app, <- app_assoc, replace_range_at. split; [reflexivity|]. split.
    + cbn. rewrite count_lf_app. lia.
    + repeat apply paired_app; assumption.
  - unfold one_change, ordered. cbn. auto.
Qed.

Lemma tidy_batch : forall enc t cs t', tidy_changes enc t cs t' -> paired t ->
  one_by_one enc (normalize t) cs = Some (normalize t') /\ Forall ordered cs /\ paired t'.
Proof.
  intros enc t cs t' H. induction H as [t|t c t' cs t'' H1 _ IH]; intro Hp.
  - cbn. auto.
  - destruct (tidy_one _ _ _ _ H1 Hp) as [E1 [O1 P1]]. destruct (IH P1) as [E2 [O2 P2]].
    cbn. rewrite E1. auto.
Qed.

Lemma tidy_apply : forall enc t cs t', tidy_changes enc t cs t' -> paired t ->
  exists li, apply_text_changes enc (normalize t) cs (line_index_new (normalize t)) = Some (normalize t', li).
Proof.
  intros enc t cs t' H Hp. destruct (tidy_batch _ _ _ _ H Hp) as [E [O _]].
  pose proof (batch_correct enc _ _ _ O E) as R. unfold result in R.
  destruct (apply_text_changes enc (normalize t) cs (line_index_new (normalize t))) as [[x li]|]; [|discriminate].
  cbn in R. injection R as ->. eauto.
Qed.

Lemma text_eqb_neq : forall a b, a <> b -> text_eqb a b = false.
Proof. intros a b H. destruct (text_eqb a b) eqn:E; [apply text_eqb_eq in E; contradiction|reflexivity]. Qed.

Section D.
  Context {T : Type}.
  Context (parse : text -> T).

  Definition sync (enc : encoding) (m : documents T) (e : editor) : Prop :=
    forall u, match m u, e u with
              | Some d, Some (t, v) => in_step parse enc d t v /\ paired t
              | None, None => True
              | _, _ => False
              end.

  Lemma document_new_in_step : forall t v enc, in_step parse enc (document_new T parse t (Some v) enc) t v.
  Proof.
    intros t v enc. unfold in_step, document_new. cbn.
    assert (match infer t with Lf => t | Crlf => normalize t end = normalize t) as ->.
    { exact (normalize_ref_spec t). }
    repeat split.
  Qed.

  Lemma sync_set : forall enc m e u d t v, sync enc m e -> in_step parse enc d t v -> paired t ->
    sync enc (docs_set T m u (Some d)) (editor_set e u (Some (t, v))).
  Proof.
    intros enc m e u d t v H Hd Hp w. unfold docs_set, editor_set. destruct (text_eqb w u); [auto|apply H].
  Qed.

  Lemma sync_unset : forall enc m e u, sync enc m e -> sync enc (docs_set T m u None) (editor_set e u None).
  Proof. intros enc m e u H w. unfold docs_set, editor_set. destruct (text_eqb w u); [exact I|apply H]. Qed.

  Lemma run_in_step : forall enc e h e', editor_run enc e h e' -> forall m, sync enc m e ->
    exists m', doc_run T parse enc m h = Some m' /\ sync enc m' e'.
  Proof.
    intros enc e h e' H.
    induction H as [e|e u v t h e' Hp H IH|e u v v' t t' cs h e' He Hv Hc H IH|e u h e' H IH]; intros m Hm.
    - exists m. split; [reflexivity|exact Hm].
    - cbn [doc_run doc_step]. apply IH. apply sync_set; [exact Hm|apply document_new_in_step|exact Hp].
    - cbn [doc_run doc_step]. pose proof (Hm u) as Hu. rewrite He in Hu. destruct (m u) as [d|]; [|contradiction].
      destruct Hu as [[D1 [D2 [D3 [D4 D5]]]] Hp]. unfold on_did_change. rewrite D4.
      destruct (Z.ltb_spec v' v); [lia|]. rewrite D1, D2, D5.
      destruct (tidy_apply _ _ _ _ Hc Hp) as [li ->]. apply IH.
      apply sync_set; [exact Hm| |].
      + unfold in_step. cbn. auto.
      + destruct (tidy_batch _ _ _ _ Hc Hp) as [_ [_ P]]. exact P.
    - cbn [doc_run doc_step]. pose proof (Hm u) as Hu. destruct (m u) as [d|] eqn:Ed.
      + apply IH. apply sync_unset. exact Hm.
      + apply IH. destruct (e u) as [p|] eqn:Ee; [contradiction|]. intro w. unfold editor_set.
        destruct (text_eqb w u) eqn:E; [|apply Hm]. apply text_eqb_eq in E. subst w. rewrite Ed. exact I.
  Qed.

  Definition no_documents : documents T := fun _ => None.
  Definition no_editor : editor := fun _ => None.

  Lemma server_equals_editor : forall enc h e', editor_run enc no_editor h e' ->
    exists m, doc_run T parse enc no_documents h = Some m /\
      forall u, match e' u with
                | Some (t, v) => exists d, m u = Some d /\ in_step parse enc d t v
                | None => m u = None
                end.
  Proof.
    intros enc h e' H. destruct (run_in_step _ _ _ _ H no_documents) as [m [H1 H2]].
    - intro u. exact I.
    - exists m. split; [exact H1|]. intro u. specialize (H2 u). destruct (m u) as [d|], (e' u) as [[t v]|]; try contradiction; [|reflexivity].
      exists d. split; [reflexivity|apply H2].
  Qed.

  (* versions *)
  Lemma version_step : forall enc m ev m' b u d d',
    doc_step T parse enc m ev = Some (m', b) -> m u = Some d -> m' u = Some d' ->
    (forall v t, ev <> EvOpen u v t) ->
    (d' = d \/ exists cs v, ev = EvChange u v cs /\ d_version d' = Some v) /\
    (forall old, d_version d = Some old -> exists new, d_version d' = Some new /\ (old <= new)%Z).
  Proof.
    intros enc m ev m' b u d d' Hs Hm Hm' Hno. destruct ev as [w v t|w v cs|w]; cbn [doc_step] in Hs.
    - injection Hs as <- <-. unfold docs_set in Hm'. destruct (text_eqb u w) eqn:E.
      + apply text_eqb_eq in E. subst w. exfalso. exact (Hno v t eq_refl).
      + rewrite Hm in Hm'. injection Hm' as <-. split; [left; reflexivity|]. intros old Ho. exists old. split; [exact Ho|lia].
    - destruct (m w) as [dw|] eqn:Ew.
      + destruct (on_did_change T parse dw cs v) as [dw'|] eqn:Ec; [|discriminate]. injection Hs as <- <-.
        unfold docs_set in Hm'. destruct (text_eqb u w) eqn:E.
        * apply text_eqb_eq in E. subst w. injection Hm' as <-. rewrite Ew in Hm. injection Hm as <-.
          unfold on_did_change in Ec. destruct (d_version dw) as [old|] eqn:Ev.
          -- destruct (Z.ltb_spec v old); [discriminate|].
             destruct (apply_text_changes (d_enc dw) (d_contents dw) cs (d_line_index dw)) as [[x li]|]; [|discriminate].
             injection Ec as <-. cbn [d_version]. split; [right; eauto|]. intros o Ho. injection Ho as <-. eauto.
          -- destruct (apply_text_changes (d_enc dw) (d_contents dw) cs (d_line_index dw)) as [[x li]|]; [|discriminate].
             injection Ec as <-. cbn [d_version]. split; [right; eauto|]. discriminate.
        * rewrite Hm in Hm'. injection Hm' as <-. split; [left; reflexivity|]. intros old Ho. exists old. split; [exact Ho|lia].
      + injection Hs as <- <-. rewrite Hm in Hm'. injection Hm' as <-. split; [left; reflexivity|]. intros old Ho. exists old. split; [exact Ho|lia].
    - destruct (m w) as [dw|] eqn:Ew; injection Hs as <- <-.
      + unfold docs_set in Hm'. destruct (text_eqb u w); [discriminate|].
        rewrite Hm in Hm'. injection Hm' as <-. split; [left; reflexivity|]. intros old Ho. exists old. split; [exact Ho|lia].
      + rewrite Hm in Hm'. injection Hm' as <-. split; [left; reflexivity|]. intros old Ho. exists old. split; [exact Ho|lia].
  Qed.

  Lemma older_version_stops : forall enc m u v cs d old,
    m u = Some d -> d_version d = Some old -> (v < old)%Z ->
    doc_step T parse enc m (EvChange u v cs) = None.
  Proof.
    intros enc m u v cs d old Hm Hv Hl. cbn. rewrite Hm. unfold on_did_change. rewrite Hv.
    destruct (Z.ltb_spec v old); [reflexivity|lia].
  Qed.

  (* along a history without reopening *)
  Lemma version_run : forall enc h m m' u d d',
    doc_run T parse enc m h = Some m' -> m u = Some d -> m' u = Some d' ->
    (forall v t, ~ In (EvOpen u v t) h) ->
    forall old, d_version d = Some old -> exists new, d_version d' = Some new /\ (old <= new)%Z.
  Proof.
    intros enc h. induction h as [|ev h IH]; intros m m' u d d' Hr Hm Hm' Hno old Ho.
    - cbn in Hr. injection Hr as <-. rewrite Hm in Hm'. injection Hm' as <-. exists old. split; [exact Ho|lia].
    - cbn [doc_run] in Hr. destruct (doc_step T parse enc m ev) as [[m1 b]|] eqn:Es; [|discriminate].
      destruct (m1 u) as [d1|] eqn:E1.
      + destruct (version_step _ _ _ _ _ _ _ _ Es Hm E1) as [_ Hv].
        { intros v t E. apply (Hno v t). left. exact E. }
        destruct (Hv _ Ho) as [n1 [Hn1 Hl1]].
        destruct (IH m1 m' u d1 d' Hr E1 Hm' ltac:(intros v t H; apply (Hno v t); right; exact H) n1 Hn1) as [n2 [Hn2 Hl2]].
        exists n2. split; [exact Hn2|lia].
      + exfalso. clear - Hr E1 Hm' Hno. assert (forall v t, ~ In (EvOpen u v t) h) as Hno' by (intros v t H; apply (Hno v t); right; exact H).
        clear Hno. revert m1 Hr E1. induction h as [|ev' h IH]; intros m1 Hr E1.
        * cbn in Hr. injection Hr as <-. congruence.
        * cbn [doc_run] in Hr. destruct (doc_step T parse enc m1 ev') as [[m2 b2]|] eqn:Es; [|discriminate].
          apply (IH ltac:(intros v t H; apply (Hno' v t); right; exact H) m2 Hr).
          destruct ev' as [w v t|w v cs|w]; cbn [doc_step] in Es.
          -- injection Es as <- <-. unfold docs_set. destruct (text_eqb u w) eqn:E; [|exact E1].
             apply text_eqb_eq in E. subst w. exfalso. apply (Hno' v t). left. reflexivity.
          -- destruct (m1 w) as [dw|] eqn:Ew; [|injection Es as <- <-; exact E1].
             destruct (on_did_change T parse dw cs v); [|discriminate]. injection Es as <- <-.
             unfold docs_set. destruct (text_eqb u w) eqn:E; [|exact E1]. apply text_eqb_eq in E. subst w. congruence.
          -- destruct (m1 w) as [dw|] eqn:Ew; injection Es as <- <-; [|exact E1].
             unfold docs_set. destruct (text_eqb u w); [reflexivity|exact E1].
  Qed.
End D.
