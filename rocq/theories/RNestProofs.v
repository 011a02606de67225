(** Token lists with matching delimiters, and their lexemes. *)
From Coq Require Import List NArith Bool Arith Lia String.
From Verif Require Import Text TextFacts LineEndingSpec LineEndingProofs SettingsModel SyntaxKind FmtTree
  IrModel FmtSpec LexSpec LexProofs LexRunProofs LexSealProofs RReadSpec FmtLineSpec RTextSpec.
Import ListNotations.
Local Open Scope N_scope.

(** Not a delimiter, not part of a string, no mark. *)
Definition flat_kind (k : kind) : bool :=
  match k with
  | STRING_OPEN | STRING_CONTENT | STRING_CLOSE | UNICODE_BOM
  | L_PAREN | L_CURLY | L_BRACK | L_BRACK2 | R_PAREN | R_CURLY | R_BRACK | R_BRACK2 => false
  | _ => true
  end.
Definition opener (k : kind) : option text :=
  match k with
  | L_PAREN => Some $"(" | L_CURLY => Some $"{" | L_BRACK => Some $"[" | L_BRACK2 => Some $"[["
  | _ => None
  end.
Definition closer (k : kind) : option (kind * text) :=
  match k with
  | R_PAREN => Some (L_PAREN, $")") | R_CURLY => Some (L_CURLY, $"}") | R_BRACK => Some (L_BRACK, $"]")
  | R_BRACK2 => Some (L_BRACK2, $"]]")
  | _ => None
  end.
Definition string_token (a z : text) : Prop :=
  is_string a = true /\ string_ends a = (List.length a, List.length z).

Inductive nested : list (token * bool) -> Prop :=
| N_nil : nested []
| N_one t b : flat_kind (t_kind t) = true -> kind_of (t_text t) = t_kind t -> is_comment (t_text t) = false ->
    nested [(t, b)]
| N_string2 a z b : t_kind a = STRING_OPEN -> t_kind z = STRING_CLOSE ->
    string_token (t_text a) (t_text z) -> nested [(a, b); (z, false)]
| N_string3 a c z b : t_kind a = STRING_OPEN -> t_kind c = STRING_CONTENT -> t_kind z = STRING_CLOSE ->
    t_text c <> [] -> string_token (t_text a) (t_text z) -> nested [(a, b); (c, false); (z, false)]
| N_pair o c b b' l : opener (t_kind o) = Some (t_text o) -> closer (t_kind c) = Some (t_kind o, t_text c) ->
    nested l -> nested ((o, b) :: l ++ [(c, b')])
| N_app x y : nested x -> nested y -> nested (x ++ y).

Lemma opener_cases t : opener (t_kind t) = Some (t_text t) ->
  t = tk L_PAREN $"(" \/ t = tk L_CURLY $"{" \/ t = tk L_BRACK $"[" \/ t = tk L_BRACK2 $"[[".
Proof.
  destruct t as [k x]. cbn [t_kind t_text]. intros E.
  destruct k; try discriminate; injection E as <-; auto.
Qed.
Lemma closer_cases o c : opener (t_kind o) = Some (t_text o) -> closer (t_kind c) = Some (t_kind o, t_text c) ->
  (o, c) = (tk L_PAREN $"(", tk R_PAREN $")") \/ (o, c) = (tk L_CURLY $"{", tk R_CURLY $"}") \/
  (o, c) = (tk L_BRACK $"[", tk R_BRACK $"]") \/ (o, c) = (tk L_BRACK2 $"[[", tk R_BRACK2 $"]]").
Proof.
  destruct c as [k x]. intros O E. apply opener_cases in O.
  cbn [t_kind t_text] in E. destruct k; try discriminate E; cbn [closer] in E; injection E as E <-;
    destruct O as [->|[->|[->| ->]]]; try discriminate E; auto.
Qed.

(** * Strings *)

Lemma is_string_app a z : is_string a = true -> is_string (a ++ z) = true.
Proof.
  destruct a as [|c [|d r]]; cbn; try discriminate; [|auto].
  intros H. rewrite andb_false_r, orb_false_r in H. rewrite H. reflexivity.
Qed.
Lemma string_kind x : is_string x = true -> kind_of x = STRING_OPEN.
Proof.
  intros H. unfold kind_of. destruct (find _ words) as [w|] eqn:F; [|rewrite H; reflexivity].
  apply find_some in F. destruct F as [I E]. apply text_eqb_eq in E. subst x. exfalso.
  assert (A : forallb (fun w => negb (is_string (fst w))) words = true) by reflexivity.
  rewrite forallb_forall in A. specialize (A w I). rewrite H in A. discriminate.
Qed.
Lemma dashes_app x y : (dashes x < List.length x)%nat -> dashes (x ++ y) = dashes x.
Proof.
  induction x as [|c x IH]; cbn; [lia|]. destruct (c =? DASH); [|reflexivity]. intros H.
  rewrite IH by lia. reflexivity.
Qed.
Lemma string_ends_app a z y : string_token a z -> string_ends (a ++ y) = string_ends a.
Proof.
  intros [S E]. destruct a as [|c r]; [discriminate|]. cbn [app string_ends] in *.
  destruct (quote c) eqn:Q; [reflexivity|]. destruct r as [|d r].
  - cbn [is_string] in S. rewrite Q, andb_false_r in S. discriminate.
  - cbn [tl app]. injection E as E _. cbn [List.length tl] in E. rewrite dashes_app by lia. reflexivity.
Qed.
Lemma string_tokens_of a m z : string_token a z ->
  string_tokens (a ++ m ++ z) =
  tk STRING_OPEN a :: match m with [] => [] | _ => [tk STRING_CONTENT m] end ++ [tk STRING_CLOSE z].
Proof.
  intros T. unfold string_tokens. rewrite (string_ends_app a z _ T). destruct T as [_ ->].
  assert (L : (List.length (a ++ m ++ z) - List.length z = List.length a + List.length m)%nat)
    by (rewrite !app_length; lia).
  assert (F : forall x y : text, firstn (List.length x) (x ++ y) = x)
    by (intros x y; rewrite firstn_app, firstn_all, Nat.sub_diag; apply app_nil_r).
  assert (K : forall x y : text, skipn (List.length x) (x ++ y) = y)
    by (intros x y; rewrite skipn_app, skipn_all, Nat.sub_diag; reflexivity).
  rewrite L, F, app_assoc, <- app_length, F, !K. reflexivity.
Qed.

(** * Lexemes *)

Lemma join_last_app m y b x : join_last (m ++ [(y, b)]) x = m ++ [(y ++ x, b)].
Proof.
  induction m as [|[z c] m IH]; [reflexivity|]. cbn [app join_last]. rewrite IH.
  destruct (m ++ [(y, b)]) eqn:E; [destruct m; discriminate|reflexivity].
Qed.
Lemma add_flat m t b : flat_kind (t_kind t) = true -> add_token m (t, b) = m ++ [(t_text t, b)].
Proof. unfold add_token. destruct (t_kind t); try discriminate; reflexivity. Qed.
Lemma add_open m t b : t_kind t = STRING_OPEN -> add_token m (t, b) = m ++ [(t_text t, b)].
Proof. unfold add_token. intros ->. reflexivity. Qed.
Lemma add_rest m t b : t_kind t = STRING_CONTENT \/ t_kind t = STRING_CLOSE ->
  add_token m (t, b) = join_last m (t_text t).
Proof. unfold add_token. intros [->| ->]; reflexivity. Qed.

Lemma nested_grow l : nested l -> forall m, fold_left add_token l m = m ++ marked_lexemes l.
Proof.
  unfold marked_lexemes. induction 1 as [|t b F K Nc|a z b A Z T|a c z b A C Z N T|o c b b' l O C H IH|x y X IX Y IY];
    intros m; cbn [fold_left].
  - rewrite app_nil_r. reflexivity.
  - rewrite !(add_flat _ t b F). reflexivity.
  - rewrite !(add_open _ a b A), !(add_rest _ z false (or_intror Z)), !join_last_app. reflexivity.
  - rewrite !(add_open _ a b A), !(add_rest _ c false (or_introl C)), !join_last_app,
      !(add_rest _ z false (or_intror Z)), !join_last_app. reflexivity.
  - rewrite !fold_left_app, (IH (add_token m _)), (IH (add_token [] _)). cbn [fold_left].
    destruct (closer_cases o c O C) as [E|[E|[E|E]]]; injection E as -> ->; cbn; rewrite <- !app_assoc; reflexivity.
  - rewrite !fold_left_app, (IX m), (IY (m ++ _)), (IX []), (IY ([] ++ _)). cbn [app]. rewrite app_assoc. reflexivity.
Qed.
Lemma nested_app_lexemes x y : nested x -> nested y ->
  marked_lexemes (x ++ y) = marked_lexemes x ++ marked_lexemes y.
Proof. intros X Y. unfold marked_lexemes at 1. rewrite fold_left_app. apply (nested_grow y Y). Qed.
Lemma pair_lexemes o c b b' l : opener (t_kind o) = Some (t_text o) ->
  closer (t_kind c) = Some (t_kind o, t_text c) -> nested l ->
  marked_lexemes ((o, b) :: l ++ [(c, b')]) =
  (t_text o, b) :: marked_lexemes l ++ marked_lexemes [(c, b')].
Proof.
  intros O C H. unfold marked_lexemes at 1. cbn [fold_left].
  rewrite fold_left_app, (nested_grow l H).
  destruct (closer_cases o c O C) as [E|[E|[E|E]]]; injection E as -> ->; cbn; rewrite <- ?app_assoc; reflexivity.
Qed.

(** * Back to tokens *)

Lemma r_tokens_flat s x b r : flat_kind (kind_of x) = true ->
  r_tokens s ((x, b) :: r) = (tk (kind_of x) x, b) :: r_tokens s r.
Proof. cbn [r_tokens]. destruct (kind_of x); try discriminate; reflexivity. Qed.
Lemma token_eta' t : tk (t_kind t) (t_text t) = t.
Proof. destruct t. reflexivity. Qed.
Lemma nested_tokens l : nested l -> forall s r,
  r_tokens s (marked_lexemes l ++ r) = l ++ r_tokens s r.
Proof.
  induction 1 as [|t b F K Nc|a z b A Z T|a c z b A C Z N T|o c b b' l O C H IH|x y X IX Y IY]; intros s r.
  - reflexivity.
  - unfold marked_lexemes. cbn [fold_left]. rewrite (add_flat _ t b F). cbn [app].
    rewrite r_tokens_flat; rewrite K; [|exact F]. rewrite token_eta'. reflexivity.
  - unfold marked_lexemes. cbn [fold_left].
    rewrite (add_open _ a b A), (add_rest _ z false (or_intror Z)), join_last_app.
    cbn [app r_tokens]. rewrite (string_kind _ (is_string_app _ _ (proj1 T))).
    pose proof (string_tokens_of (t_text a) [] (t_text z) T) as E. cbn [app] in E. rewrite E.
    cbn [first_marked map app]. rewrite <- A, <- Z, !token_eta'. reflexivity.
  - unfold marked_lexemes. cbn [fold_left].
    rewrite (add_open _ a b A), (add_rest _ c false (or_introl C)), join_last_app,
      (add_rest _ z false (or_intror Z)), join_last_app, <- (app_assoc (t_text a)).
    cbn [app r_tokens]. rewrite (string_kind _ (is_string_app _ _ (proj1 T))).
    rewrite (string_tokens_of (t_text a) (t_text c) (t_text z) T).
    destruct (t_text c) eqn:Ec; [contradiction|]. rewrite <- Ec.
    cbn [first_marked map app]. rewrite <- A, <- Z, <- C, !token_eta'. reflexivity.
  - rewrite (pair_lexemes o c b b' l O C H).
    destruct (closer_cases o c O C) as [E|[E|[E|E]]]; injection E as -> ->; cbn [app t_text tk];
      rewrite <- !app_assoc.
    + assert (E : forall r, r_tokens s (($"(", b) :: r) = (tk L_PAREN $"(", b) :: r_tokens (false :: s) r)
        by reflexivity.
      rewrite E, IH. reflexivity.
    + assert (E : forall r, r_tokens s (($"{", b) :: r) = (tk L_CURLY $"{", b) :: r_tokens (false :: s) r)
        by reflexivity.
      rewrite E, IH. reflexivity.
    + assert (E : forall r, r_tokens s (($"[", b) :: r) = (tk L_BRACK $"[", b) :: r_tokens (false :: s) r)
        by reflexivity.
      rewrite E, IH. reflexivity.
    + assert (E : forall r, r_tokens s (($"[[", b) :: r) = (tk L_BRACK2 $"[[", b) :: r_tokens (true :: s) r)
        by reflexivity.
      rewrite E, IH. reflexivity.
  - rewrite (nested_app_lexemes x y X Y), <- app_assoc, IX, IY, app_assoc. reflexivity.
Qed.
Lemma nested_read l : nested l -> r_tokens [] (marked_lexemes l) = l.
Proof.
  intros H. rewrite <- (app_nil_r (marked_lexemes l)), (nested_tokens l H), app_nil_r. reflexivity.
Qed.

(** * Flags *)

Definition mark_first (b : bool) (m : list (text * bool)) : list (text * bool) :=
  match m with [] => [] | (x, f) :: r => (x, b || f) :: r end.
Lemma nested_some l : nested l -> l <> [] -> marked_lexemes l <> [].
Proof.
  induction 1 as [|t b F K Nc|a z b A Z T|a c z b A C Z N T|o c b b' l O C H IH|x y X IX Y IY]; intros E.
  - contradiction.
  - unfold marked_lexemes. cbn [fold_left]. rewrite (add_flat _ t b F). discriminate.
  - unfold marked_lexemes. cbn [fold_left].
    rewrite (add_open _ a b A), (add_rest _ z false (or_intror Z)), join_last_app. discriminate.
  - unfold marked_lexemes. cbn [fold_left].
    rewrite (add_open _ a b A), (add_rest _ c false (or_introl C)), join_last_app,
      (add_rest _ z false (or_intror Z)), join_last_app. discriminate.
  - rewrite (pair_lexemes o c b b' l O C H). discriminate.
  - rewrite (nested_app_lexemes x y X Y). intros Q. apply app_eq_nil in Q. destruct Q as [Q1 Q2].
    destruct x as [|u x]; [exact (IY E Q2)|]. apply IX; [discriminate|exact Q1].
Qed.
(** The first lexeme and the first token. *)
Lemma nested_first l : nested l -> forall x b m, marked_lexemes l = (x, b) :: m ->
  exists t r, l = (t, b) :: r /\ kind_of x = t_kind t.
Proof.
  induction 1 as [|t f F K Nc|a z f A Z T|a c z f A C Z N T|o c f f' l O C H IH|x' y X IX Y IY]; intros x b m E.
  - discriminate.
  - unfold marked_lexemes in E. cbn [fold_left] in E. rewrite (add_flat _ t f F) in E.
    injection E as <- <- _. eauto.
  - unfold marked_lexemes in E. cbn [fold_left] in E.
    rewrite (add_open _ a f A), (add_rest _ z false (or_intror Z)), join_last_app in E.
    injection E as <- <- _. do 2 eexists. split; [reflexivity|]. rewrite A. apply string_kind, is_string_app, T.
  - unfold marked_lexemes in E. cbn [fold_left] in E.
    rewrite (add_open _ a f A), (add_rest _ c false (or_introl C)), join_last_app,
      (add_rest _ z false (or_intror Z)), join_last_app in E.
    injection E as <- <- _. do 2 eexists. split; [reflexivity|]. rewrite A, <- app_assoc. apply string_kind, is_string_app, T.
  - rewrite (pair_lexemes o c f f' l O C H) in E. injection E as <- <- _. do 2 eexists. split; [reflexivity|].
    destruct (opener_cases o O) as [->|[->|[->| ->]]]; reflexivity.
  - rewrite (nested_app_lexemes x' y X Y) in E. destruct x' as [|u x'].
    + exact (IY _ _ _ E).
    + pose proof (nested_some _ X ltac:(discriminate)) as N.
      destruct (marked_lexemes (u :: x')) as [|[x1 b1] m1] eqn:Em; [contradiction|].
      cbn [app] in E. injection E as -> -> _. destruct (IX _ _ _ eq_refl) as [t [r [-> K]]].
      exists t, (r ++ y). auto.
Qed.
Lemma flag_cons b x l : flag b (x :: l) = (fst x, b || snd x) :: l.
Proof. destruct x. reflexivity. Qed.
Lemma nested_flag f l : nested l ->
  nested (flag f l) /\ marked_lexemes (flag f l) = mark_first f (marked_lexemes l).
Proof.
  induction 1 as [|t b F K Nc|a z b A Z T|a c z b A C Z N T|o c b b' l O C H IH|x y X IX Y IY].
  - split; [constructor|reflexivity].
  - split; [constructor; assumption|]. unfold marked_lexemes. cbn [flag fold_left].
    rewrite !(add_flat _ t _ F). reflexivity.
  - split; [constructor; assumption|]. unfold marked_lexemes. cbn [flag fold_left].
    rewrite !(add_open _ a _ A), !(add_rest _ z false (or_intror Z)), !join_last_app. reflexivity.
  - split; [constructor; assumption|]. unfold marked_lexemes. cbn [flag fold_left].
    rewrite !(add_open _ a _ A), !(add_rest _ c false (or_introl C)), !join_last_app,
      !(add_rest _ z false (or_intror Z)), !join_last_app. reflexivity.
  - split; [cbn [flag]; constructor; assumption|]. cbn [flag].
    rewrite !(pair_lexemes o c _ b' l O C H). reflexivity.
  - destruct x as [|u x]; [exact IY|].
    assert (E : flag f ((u :: x) ++ y) = flag f (u :: x) ++ y) by (rewrite <- app_comm_cons, !flag_cons; reflexivity).
    rewrite E. destruct IX as [I1 I2]. split; [constructor; assumption|].
    rewrite (nested_app_lexemes _ y I1 Y), (nested_app_lexemes _ y X Y), I2.
    pose proof (nested_some _ X ltac:(discriminate)) as N.
    destruct (marked_lexemes (u :: x)) as [|[x1 b1] m1]; [contradiction|reflexivity].
Qed.

(** * Line endings in strings *)

Lemma same_kind t t' : t' = t \/ same_token t t' -> t_kind t' = t_kind t.
Proof.
  intros [->|H]; [reflexivity|]. unfold same_token in H.
  destruct (kind_eqb (t_kind t) STRING_CONTENT) eqn:E; [|subst; reflexivity].
  apply kind_eqb_eq in E. rewrite E. apply H.
Qed.
Lemma same_other t t' : t' = t \/ same_token t t' -> t_kind t <> STRING_CONTENT -> t' = t.
Proof.
  intros [->|H] N; [reflexivity|]. unfold same_token in H.
  destruct (kind_eqb (t_kind t) STRING_CONTENT) eqn:E; [|exact H].
  apply kind_eqb_eq in E. contradiction.
Qed.
Lemma without_cr_some x : x <> [] -> without_cr_of_crlf x <> [].
Proof.
  intros N. rewrite without_drop. destruct x as [|c x]; [contradiction|]. rewrite drop_cr_cons.
  destruct (crlf_head c x) eqn:E; [|discriminate]. apply crlf_head_true in E.
  destruct E as [r [-> ->]]. rewrite drop_cr_LF. discriminate.
Qed.
Lemma nested_same l : nested l -> forall l', Forall2 same_marked l l' -> nested l'.
Proof.
  induction 1 as [|t b F K Nc|a z b A Z T|a c z b A C Z N T|o c b b' l O C H IH|x y X IX Y IY]; intros l' S.
  - inversion S; subst. constructor.
  - inversion S as [|? [t' b1] ? ? [E1 E2] S1]; subst. inversion S1; subst. cbn [fst snd] in *.
    rewrite (same_other t t' E2) by (intros Q; rewrite Q in F; discriminate). constructor; assumption.
  - inversion S as [|? [a' b1] ? ? [E1 E2] S1]; subst.
    inversion S1 as [|? [z' b2] ? ? [E3 E4] S2]; subst. inversion S2; subst. cbn [fst snd] in *. subst.
    rewrite (same_other a a' E2) by (rewrite A; discriminate).
    rewrite (same_other z z' E4) by (rewrite Z; discriminate). constructor; assumption.
  - inversion S as [|? [a' b1] ? ? [E1 E2] S1]; subst.
    inversion S1 as [|? [c' b3] ? ? [E5 E6] S3]; subst.
    inversion S3 as [|? [z' b2] ? ? [E3 E4] S2]; subst. inversion S2; subst. cbn [fst snd] in *. subst.
    rewrite (same_other a a' E2) by (rewrite A; discriminate).
    rewrite (same_other z z' E4) by (rewrite Z; discriminate).
    constructor; try assumption; [rewrite (same_kind c c' E6); exact C|].
    destruct E6 as [->|E6]; [exact N|]. unfold same_token in E6. rewrite C in E6.
    change (kind_eqb STRING_CONTENT STRING_CONTENT) with true in E6. destruct E6 as [_ ->].
    apply without_cr_some, N.
  - inversion S as [|? [o' b1] ? ? [E1 E2] S1]; subst. cbn [fst snd] in *. subst.
    apply Forall2_app_inv_l in S1. destruct S1 as [l1 [l2 [S1 [S2 ->]]]].
    inversion S2 as [|? [c' b2] ? ? [E3 E4] S3]; subst. inversion S3; subst. cbn [fst snd] in *. subst.
    assert (No : t_kind o <> STRING_CONTENT) by (intros Q; rewrite Q in O; discriminate).
    assert (Nc : t_kind c <> STRING_CONTENT) by (intros Q; rewrite Q in C; discriminate).
    rewrite (same_other o o' E2 No), (same_other c c' E4 Nc). constructor; auto.
  - apply Forall2_app_inv_l in S. destruct S as [l1 [l2 [S1 [S2 ->]]]]. constructor; auto.
Qed.
