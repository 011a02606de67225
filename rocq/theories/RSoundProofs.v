(** What R's reading of a text is like: keywords and delimiters are spelled as
    they are called, strings are whole, no expression ends at the start of
    braces. *)
From Coq Require Import List NArith Bool Arith Lia String.
From Verif Require Import Text TextFacts LineEndingSpec SettingsModel SyntaxKind FmtTree IrModel FmtSpec
  LexSpec LexProofs RReadSpec FmtLineSpec RTextSpec RReadProofs RNestProofs
  GrammarSpec GrammarSoundProofs.
Import ListNotations.
Local Open Scope N_scope.

(** * Kinds *)

Lemma kind_of_cases x : (exists w, In w words /\ w = (x, kind_of x)) \/
  (forallb (fun u => negb (kind_eqb (kind_of x) (t_kind u))) fixed_tokens = true /\
   (kind_of x = STRING_OPEN -> is_string x = true)).
Proof.
  unfold kind_of. destruct (find _ words) as [w|] eqn:F.
  - left. apply find_some in F. destruct F as [I E]. apply text_eqb_eq in E. exists w. split; [exact I|].
    destruct w as [a k]. cbn [fst snd] in *. subst a. reflexivity.
  - right. destruct (is_string x); [auto|].
    destruct (match x with c :: _ => c =? PERCENT | [] => false end); [split; [reflexivity|discriminate]|].
    destruct (numeric x).
    + unfold number_kind. destruct (last x 0 =? 76); [split; [reflexivity|discriminate]|].
      destruct (last x 0 =? 105); split; (reflexivity || discriminate).
    + destruct (dot_dot x); split; (reflexivity || discriminate).
Qed.
Lemma kind_named x : named (tk (kind_of x) x).
Proof.
  intros u Hu K. cbn [t_kind tk] in K. destruct (kind_of_cases x) as [[w [I E]]|[F _]].
  - assert (A : forallb (fun w => forallb (fun u => implb (kind_eqb (snd w) (t_kind u)) (text_eqb (fst w) (t_text u)))
        fixed_tokens) words = true) by reflexivity.
    rewrite forallb_forall in A. specialize (A w I). rewrite forallb_forall in A. specialize (A u Hu).
    rewrite E in A. cbn [fst snd] in A. rewrite K, kind_eqb_refl in A. cbn [implb] in A.
    apply text_eqb_eq in A. destruct u as [k y]. cbn [t_kind t_text] in *. subst. reflexivity.
  - rewrite forallb_forall in F. specialize (F u Hu). rewrite K, kind_eqb_refl in F. discriminate.
Qed.
Lemma bracket_text x : kind_of x = R_BRACK -> x = $"]".
Proof.
  intros K. pose proof (kind_named x (r_token KSubset)) as N. rewrite K in N.
  assert (I : In (r_token KSubset) fixed_tokens) by (unfold fixed_tokens; cbn; tauto).
  specialize (N I eq_refl). injection N as ->. reflexivity.
Qed.
Lemma open_string x : kind_of x = STRING_OPEN -> is_string x = true.
Proof.
  intros K. destruct (kind_of_cases x) as [[w [I E]]|[_ F]]; [|exact (F K)].
  assert (A : forallb (fun w => negb (kind_eqb (snd w) STRING_OPEN)) words = true) by reflexivity.
  rewrite forallb_forall in A. specialize (A w I). rewrite E, K in A. discriminate.
Qed.
Lemma not_fixed t : forallb (fun u => negb (kind_eqb (t_kind t) (t_kind u))) fixed_tokens = true -> named t.
Proof.
  intros F u Hu K. rewrite forallb_forall in F. specialize (F u Hu). rewrite K, kind_eqb_refl in F. discriminate.
Qed.

(** * Tokens of lexemes *)

Lemma string_tokens_cases x : exists a m z, string_tokens x = tk STRING_OPEN a :: m ++ [tk STRING_CLOSE z] /\
  (m = [] \/ exists c, c <> [] /\ m = [tk STRING_CONTENT c]).
Proof.
  unfold string_tokens. destruct (string_ends x) as [a z].
  destruct (skipn a (firstn (List.length x - z) x)) as [|c r] eqn:E; do 3 eexists; (split; [reflexivity|]).
  - left. reflexivity.
  - right. exists (c :: r). split; [discriminate|reflexivity].
Qed.
Definition lexeme_tokens (s : list bool) (x : text) : list token :=
  match kind_of x with STRING_OPEN => string_tokens x | k => [tk k x] end.
(** The tokens of the first lexeme and the rest. *)
Lemma r_tokens_step s x b r :
  (exists s', r_tokens s ((x, b) :: r) = first_marked b (lexeme_tokens s x) ++ r_tokens s' r) \/
  (exists y b' r' s', r = (y, b') :: r' /\ kind_of x = R_BRACK /\ kind_of y = R_BRACK /\
     r_tokens s ((x, b) :: r) = (tk R_BRACK2 $"]]", b) :: r_tokens s' r').
Proof.
  unfold lexeme_tokens. cbn [r_tokens].
  destruct (kind_of x) eqn:K; try (left; eexists; reflexivity).
  destruct s as [|[|] s]; try (left; eexists; reflexivity).
  destruct r as [|[y b'] r']; [left; exists s; reflexivity|].
  destruct (kind_eqb (kind_of y) R_BRACK) eqn:Ky.
  - apply kind_eqb_eq in Ky. right. exists y, b', r', s. rewrite Ky, (bracket_text x K), (bracket_text y Ky).
    split; [reflexivity|]. split; [reflexivity|]. split; reflexivity.
  - left. exists s. apply kind_eqb_neq in Ky. cbn [first_marked map app].
    destruct (kind_of y); try reflexivity. contradiction.
Qed.
Lemma lexeme_named s x : Forall named (lexeme_tokens s x).
Proof.
  unfold lexeme_tokens.
  assert (P : Forall named [tk (kind_of x) x]) by (constructor; [apply kind_named|constructor]).
  destruct (kind_of x) eqn:K; try exact P.
  destruct (string_tokens_cases x) as [a [m [z [-> M]]]].
  constructor; [apply not_fixed; reflexivity|]. apply Forall_app. split.
  - destruct M as [->|[c [_ ->]]]; repeat constructor. apply not_fixed. reflexivity.
  - constructor; [apply not_fixed; reflexivity|constructor].
Qed.
Lemma first_marked_fst b ts : map fst (first_marked b ts) = ts.
Proof. destruct ts as [|t r]; [reflexivity|]. cbn [first_marked map fst]. rewrite map_map, map_id. reflexivity. Qed.

Lemma r_tokens_named n : forall s m, (List.length m <= n)%nat -> Forall (fun x => named (fst x)) (r_tokens s m).
Proof.
  induction n as [|n IH]; intros s m L; [destruct m; [constructor|cbn in L; lia]|].
  destruct m as [|[x b] r]; [constructor|].
  destruct (r_tokens_step s x b r) as [[s' ->]|[y [b' [r' [s' [-> [Kx [Ky ->]]]]]]]]; cbn [List.length] in L.
  - apply Forall_app. split; [|apply IH; lia]. rewrite <- Forall_map, first_marked_fst. apply lexeme_named.
  - constructor; [|apply IH; lia]. cbn [fst]. intros u Hu K. unfold fixed_tokens in Hu. cbn [In] in Hu.
    repeat destruct Hu as [<-|Hu]; try discriminate K; try contradiction. reflexivity.
Qed.

(** * No end at the start of braces *)

Definition poised (st : rstate) : Prop := rs_fresh st = true -> rs_eats st = true /\ rs_pause st = NoBreak.
Fixpoint lex_calm (m : list (text * bool)) : Prop :=
  match m with
  | (x, _) :: (((_, b) :: _) as r) => (kind_of x = L_CURLY -> b = false) /\ lex_calm r
  | _ => True
  end.
Definition first_calm {A : Type} (m : list (A * bool)) : Prop :=
  match m with (_, b) :: _ => b = false | [] => True end.
Lemma lex_calm_cons x b m : (kind_of x = L_CURLY -> first_calm m) -> lex_calm m -> lex_calm ((x, b) :: m).
Proof. destruct m as [|[y c] m]; intros A B; [exact I|]. split; assumption. Qed.
Lemma lex_calm_tail x m : lex_calm (x :: m) -> lex_calm m.
Proof. destruct x as [x b], m as [|[y c] m]; [intros _; exact I|]. intros [_ H]. exact H. Qed.
Lemma lexeme_poised st x b st' : poised st -> r_lexeme st x = Some (b, st') ->
  (rs_fresh st = true -> b = false) /\ poised st' /\ (rs_fresh st' = true <-> kind_of x = L_CURLY).
Proof.
  intros P. unfold r_lexeme. destruct (r_open st x) as [s|]; [|discriminate]. intros E. injection E as <- <-.
  split; [|split].
  - intros F. destruct (P F) as [_ Q]. unfold r_mark. rewrite Q. destruct (kind_of x); reflexivity.
  - unfold poised. cbn [rs_fresh rs_eats rs_pause]. intros F. split; [|reflexivity].
    destruct (role_of (kind_of x)) eqn:R; try discriminate. reflexivity.
  - cbn [rs_fresh]. destruct (kind_of x); cbn; split; (reflexivity || discriminate).
Qed.
Lemma r_items_poised is : forall st m st', poised st -> r_items st is = Some (m, st') ->
  (rs_fresh st = true -> first_calm m) /\ lex_calm m /\ poised st'.
Proof.
  induction is as [|i is IH]; intros st m st' P H; cbn [r_items] in H.
  { injection H as <- <-. split; [intros _; exact I|]. split; [exact I|exact P]. }
  destruct (r_item st i) as [[a st1]|] eqn:Ri; [|discriminate].
  destruct (r_items st1 is) as [[b st2]|] eqn:R; [|discriminate]. injection H as <- <-.
  destruct i as [x| |]; cbn [r_item] in Ri.
  - destruct (LexSpec.is_comment x); [injection Ri as <- <-; exact (IH _ _ _ P R)|].
    destruct (r_lexeme st x) as [[k st3]|] eqn:L; [|discriminate]. injection Ri as <- <-.
    destruct (lexeme_poised _ _ _ _ P L) as [A [P1 F]]. destruct (IH _ _ _ P1 R) as [B [C D]].
    cbn [app]. split; [exact A|]. split; [|exact D]. apply lex_calm_cons; [|exact C].
    intros K. apply B, F, K.
  - injection Ri as <- <-. cbn [app].
    assert (E : rs_fresh (r_break st) = rs_fresh st).
    { unfold r_break. destruct (rs_eats st); [reflexivity|]. destruct (rs_pause st); reflexivity. }
    rewrite <- E. apply (IH _ _ _) in R; [exact R|].
    unfold poised. rewrite E. intros F. destruct (P F) as [Q1 Q2]. unfold r_break. rewrite Q1. auto.
  - destruct (r_semi st) as [s1|] eqn:Sm; [|discriminate]. injection Ri as <- <-. cbn [app].
    unfold r_semi in Sm. destruct (rs_fresh st) eqn:F.
    + injection Sm as <-. destruct (IH _ _ _ P R) as [B C]. split; [intros _; apply B, F|exact C].
    + destruct (rs_eats st); [discriminate|]. injection Sm as <-.
      assert (P1 : poised (paused Semicolon st)) by (unfold poised; cbn [paused rs_fresh]; congruence).
      destruct (IH _ _ _ P1 R) as [B C]. split; [discriminate|exact C].
Qed.

Lemma fresh_cons t b l : (t_kind t = L_CURLY -> first_calm l) -> fresh_calm l -> fresh_calm ((t, b) :: l).
Proof. destruct l as [|[y c] l]; intros A B; [exact I|]. split; assumption. Qed.
Lemma r_tokens_first s m : first_calm m -> first_calm (r_tokens s m).
Proof.
  destruct m as [|[x b] r]; [exact (fun x => x)|]. intros H. cbn in H. subst b.
  destruct (r_tokens_step s x false r) as [[s' ->]|[y [b' [r' [s' [-> [Kx [Ky ->]]]]]]]]; [|reflexivity].
  unfold lexeme_tokens. destruct (kind_of x); try reflexivity.
  destruct (string_tokens_cases x) as [a [mm [z [-> _]]]]. reflexivity.
Qed.
Lemma r_tokens_calm n : forall s m, (List.length m <= n)%nat -> lex_calm m -> fresh_calm (r_tokens s m).
Proof.
  induction n as [|n IH]; intros s m L C; [destruct m; [exact I|cbn in L; lia]|].
  destruct m as [|[x b] r]; [exact I|].
  destruct (r_tokens_step s x b r) as [[s' ->]|[y [b' [r' [s' [-> [Kx [Ky ->]]]]]]]]; cbn [List.length] in L.
  - assert (T : fresh_calm (r_tokens s' r)) by (apply IH; [lia|exact (lex_calm_tail _ _ C)]).
    assert (F : kind_of x = L_CURLY -> first_calm (r_tokens s' r)).
    { intros K. apply r_tokens_first. destruct r as [|[y c] r]; [exact I|]. exact (proj1 C K). }
    unfold lexeme_tokens. destruct (kind_of x) eqn:K;
      try (cbn [first_marked app map]; apply fresh_cons; [cbn [t_kind tk]; first [discriminate|exact F]|exact T]).
    destruct (string_tokens_cases x) as [a [mm [z [-> [->|[c [_ ->]]]]]]]; cbn [first_marked app map];
      repeat (apply fresh_cons; [discriminate|]); exact T.
  - apply fresh_cons; [discriminate|]. apply IH; [lia|]. exact (lex_calm_tail _ _ (lex_calm_tail _ _ C)).
Qed.
Lemma tokens_clean s m : tokens_of s = Some m -> clean m /\ unmarked m.
Proof.
  unfold tokens_of, r_read. destruct (RReadSpec.items s) as [is|]; [|discriminate].
  destruct (r_items r_start is) as [[l st]|] eqn:R; [|discriminate]. intros E. injection E as <-.
  assert (P : poised r_start) by (intros _; split; reflexivity).
  destruct (r_items_poised _ _ _ _ P R) as [A [B _]]. split; [split|].
  - exact (r_tokens_named _ _ _ (le_n _)).
  - exact (r_tokens_calm _ _ _ (le_n _) B).
  - pose proof (r_tokens_first [] l (A eq_refl)) as F. destruct (r_tokens [] l) as [|[t [|]] r]; [exact I| |exact I].
    discriminate F.
Qed.

(** * Strings are whole *)

Definition whole_string (x : text) : Prop :=
  is_string x = true -> (fst (string_ends x) + snd (string_ends x) <= List.length x)%nat.
(** Inside the lexeme [t]. *)
Definition stringing (l : lexing) (t : text) : Prop :=
  match t with
  | [] => False
  | [c] => LexSpec.start c = Some l
  | c :: d :: r =>
    is_string t = true -> quote c = false ->
    match l with
    | LOpening _ n => dashes r = n /\ List.length r = n
    | LRawText _ n _ => dashes r = n /\ (n < List.length r)%nat
    | LClosing _ n _ m => dashes r = n /\ (n + m + 2 <= List.length r)%nat
    | LClosed => (2 * dashes r + 3 <= List.length r)%nat
    | _ => False
    end
  end.
Definition string_place (p : place) : Prop :=
  match p with Between => True | Inside l t => stringing l t end.
Lemma dashes_length x : (dashes x <= List.length x)%nat.
Proof. induction x as [|c x IH]; cbn; [lia|]. destruct (c =? DASH); lia. Qed.
Lemma dashes_all x c : dashes x = List.length x ->
  dashes (x ++ [c]) = if c =? DASH then S (List.length x) else List.length x.
Proof.
  induction x as [|d x IH]; intros H; [cbn; destruct (c =? DASH); reflexivity|].
  cbn [app dashes List.length] in *. destruct (d =? DASH); [|discriminate].
  injection H as H. rewrite (IH H). destruct (c =? DASH); reflexivity.
Qed.
Lemma bracket_dash c b : bracket c = Some b -> c =? DASH = false.
Proof.
  intros H. destruct (N.eqb_spec c DASH) as [->|]; [discriminate H|reflexivity].
Qed.
Lemma raw_start c : quote c = false -> (c =? 114) || (c =? 82) = true -> LexSpec.start c = Some LRaw.
Proof.
  intros Q H. apply orb_true_iff in H. destruct H as [H|H]; apply N.eqb_eq in H; subst c; reflexivity.
Qed.
Lemma extend_string l t c l' : stringing l t -> extend l c = Some l' -> stringing l' (t ++ [c]).
Proof.
  destruct t as [|a [|d r]]; intros S E; [destruct S| |].
  - cbn [app stringing] in *. intros St Q. cbn [is_string] in St. rewrite Q in St. cbn [orb] in St.
    apply andb_true_iff in St. destruct St as [St Qc]. rewrite (raw_start a Q St) in S. injection S as <-.
    cbn [extend] in E. rewrite Qc in E. injection E as <-. split; reflexivity.
  - cbn [app stringing] in *. intros St Q. specialize (S St Q).
    assert (L : List.length (r ++ [c]) = Datatypes.S (List.length r)) by (rewrite app_length; cbn; lia).
    destruct l; try contradiction.
    + destruct S as [S1 S2]. cbn [extend] in E. destruct (c =? DASH) eqn:D.
      * injection E as <-. rewrite (dashes_all r c) by congruence. rewrite D, L. split; congruence.
      * destruct (bracket c) eqn:B; [|discriminate]. injection E as <-.
        rewrite (dashes_all r c) by congruence. rewrite D, L. split; [congruence|lia].
    + destruct S as [S1 S2]. cbn [extend] in E. injection E as <-.
      assert (D : dashes (r ++ [c]) = n) by (rewrite dashes_app by lia; exact S1).
      destruct (c =? close); rewrite D, L; split; auto; lia.
    + destruct S as [S1 S2]. cbn [extend] in E. injection E as <-.
      assert (D : dashes (r ++ [c]) = n) by (rewrite dashes_app by lia; exact S1).
      destruct ((c =? q) && (m =? n)%nat) eqn:X.
      * apply andb_true_iff in X. destruct X as [_ X]. apply Nat.eqb_eq in X. rewrite D, L. lia.
      * destruct ((c =? DASH) && (m <? n)%nat); [rewrite D, L; split; auto; lia|].
        destruct (c =? close); rewrite D, L; split; auto; lia.
    + discriminate E.
Qed.
Lemma complete_string l t : stringing l t -> complete_lexeme l = true -> whole_string t.
Proof.
  intros S C St. destruct t as [|a [|d r]]; [discriminate| |].
  - cbn [stringing is_string] in *. rewrite andb_false_r, orb_false_r in St.
    assert (l = LQuoted a) as ->; [|discriminate C].
    unfold quote in St. apply orb_true_iff in St. destruct St as [St|St]; apply N.eqb_eq in St; subst a;
      cbn in S; congruence.
  - cbn [string_ends List.length]. destruct (quote a) eqn:Q; [cbn [fst snd]; lia|].
    cbn [stringing] in S. specialize (S St Q). cbn [tl fst snd]. destruct l; try contradiction; try discriminate C.
    lia.
Qed.
Lemma begin_string c p : begin c = Some p -> string_place p.
Proof.
  unfold begin. destruct (blank c); [intros E; injection E as <-; exact I|].
  destruct (LexSpec.start c) as [l|] eqn:S; [|discriminate]. intros E. injection E as <-. exact S.
Qed.
Lemma see_string p c a p' : string_place p -> LexSpec.see p c = Some (a, p') ->
  Forall whole_string a /\ string_place p'.
Proof.
  intros M. destruct p as [|l t]; cbn [LexSpec.see].
  - destruct (begin c) eqn:B; [|discriminate]. intros E. injection E as <- <-.
    split; [constructor|exact (begin_string c _ B)].
  - destruct (extend l c) as [l'|] eqn:X.
    + intros E. injection E as <- <-. split; [constructor|]. exact (extend_string _ _ _ _ M X).
    + destruct (complete_lexeme l) eqn:C; [|discriminate]. destruct (begin c) eqn:B; [|discriminate].
      intros E. injection E as <- <-. split; [|exact (begin_string c _ B)].
      constructor; [|constructor]. exact (complete_string _ _ M C).
Qed.
Definition whole_item (i : RReadSpec.item) : Prop := match i with ILex x => whole_string x | _ => True end.
Lemma items_from_whole s : forall p is p', string_place p -> items_from p s = Some (is, p') ->
  Forall whole_item is /\ string_place p'.
Proof.
  induction s as [|c s IH]; intros p is p' M H; cbn [items_from] in H.
  { injection H as <- <-. split; [constructor|exact M]. }
  destruct (LexSpec.see p c) as [[x p1]|] eqn:E; [|discriminate].
  destruct (items_from p1 s) as [[y p2]|] eqn:R; [|discriminate]. injection H as <- <-.
  destruct (see_string _ _ _ _ M E) as [F M1]. destruct (IH _ _ _ M1 R) as [F2 M2]. split; [|exact M2].
  apply Forall_app. split; [rewrite Forall_map; exact F|]. apply Forall_app. split; [|exact F2].
  unfold break_of. destruct p1; [|constructor]. destruct (c =? LF); [repeat constructor|].
  destruct (c =? SEMI); repeat constructor.
Qed.
Lemma items_whole s is : RReadSpec.items s = Some is -> Forall whole_item is.
Proof.
  unfold RReadSpec.items. destruct (items_from Between s) as [[a p]|] eqn:E; [|discriminate].
  destruct (items_from_whole _ _ _ _ (I : string_place Between) E) as [F M]. intros H.
  destruct p as [|l t]; cbn [the_end] in H; [injection H as <-; rewrite app_nil_r; exact F|].
  destruct (complete_lexeme l) eqn:C; [|discriminate]. injection H as <-. apply Forall_app. split; [exact F|].
  constructor; [exact (complete_string _ _ M C)|constructor].
Qed.
Lemma r_items_whole is : forall st m st', Forall whole_item is -> r_items st is = Some (m, st') ->
  Forall (fun x => whole_string (fst x)) m.
Proof.
  induction is as [|i is IH]; intros st m st' F H; cbn [r_items] in H; [injection H as <- _; constructor|].
  inversion F as [|? ? F1 F2]; subst. destruct (r_item st i) as [[a st1]|] eqn:Ri; [|discriminate].
  destruct (r_items st1 is) as [[b st2]|] eqn:R; [|discriminate]. injection H as <- _.
  apply Forall_app. split; [|exact (IH _ _ _ F2 R)]. destruct i as [x| |]; cbn [r_item] in Ri.
  - destruct (LexSpec.is_comment x); [injection Ri as <- _; constructor|].
    destruct (r_lexeme st x) as [[k st3]|]; [|discriminate]. injection Ri as <- _.
    constructor; [exact F1|constructor].
  - injection Ri as <- _. constructor.
  - destruct (r_semi st); [|discriminate]. injection Ri as <- _. constructor.
Qed.

(** * Leaves have the kinds that R takes them for *)

Lemma dashes_firstn x : (dashes x < List.length x)%nat -> dashes (firstn (S (dashes x)) x) = dashes x.
Proof.
  induction x as [|c x IH]; cbn [dashes List.length]; [lia|]. destruct (c =? DASH) eqn:D.
  - intros L. cbn [firstn dashes]. rewrite D. f_equal. apply IH. lia.
  - intros _. cbn [firstn dashes]. rewrite D. reflexivity.
Qed.
Lemma string_parts x a m z : is_string x = true -> whole_string x ->
  string_tokens x = tk STRING_OPEN a :: m ++ [tk STRING_CLOSE z] ->
  string_token a z /\ x = a ++ List.concat (map t_text m) ++ z.
Proof.
  intros St W. specialize (W St). unfold string_tokens. destruct (string_ends x) as [n k] eqn:E.
  cbn [fst snd] in W. intros H. injection H as Ha H.
  assert (Hm : m = match skipn n (firstn (List.length x - k) x) with [] => [] | c => [tk STRING_CONTENT c] end /\
               z = skipn (List.length x - k) x).
  { destruct (skipn n (firstn (List.length x - k) x)) as [|c r].
    - change ([] ++ [tk STRING_CLOSE (skipn (List.length x - k) x)] = m ++ [tk STRING_CLOSE z]) in H.
      apply app_inj_tail in H. destruct H as [<- H]. injection H as <-. auto.
    - apply app_inj_tail in H. destruct H as [<- H]. injection H as <-. auto. }
  clear H. destruct Hm as [Hm Hz]. split.
  - subst a z. unfold string_token. rewrite firstn_length, skipn_length.
    replace (Nat.min n (List.length x)) with n by lia.
    replace (List.length x - (List.length x - k))%nat with k by lia.
    destruct x as [|c [|d r]]; [discriminate| |].
    + cbn [is_string string_ends] in St, E. rewrite andb_false_r, orb_false_r in St. rewrite St in E.
      injection E as <- <-. cbn [firstn is_string string_ends]. rewrite St. split; reflexivity.
    + cbn [string_ends] in E. destruct (quote c) eqn:Q.
      * injection E as <- <-. cbn [firstn is_string string_ends]. rewrite Q. split; reflexivity.
      * cbn [tl] in E. injection E as <- <-. cbn [List.length] in W.
        change (firstn (S (S (S (dashes r)))) (c :: d :: r)) with (c :: d :: firstn (S (dashes r)) r).
        split; [exact St|]. cbn [string_ends]. rewrite Q.
        cbn [tl]. rewrite dashes_firstn by lia. reflexivity.
  - subst a z. assert (Cm : List.concat (map t_text m) = skipn n (firstn (List.length x - k) x)).
    { rewrite Hm. destruct (skipn n (firstn (List.length x - k) x)); cbn; rewrite ?app_nil_r; reflexivity. }
    rewrite Cm. rewrite <- (firstn_skipn (List.length x - k) x) at 1. rewrite app_assoc. f_equal.
    rewrite <- (firstn_skipn n (firstn (List.length x - k) x)) at 1. f_equal.
    rewrite firstn_firstn. f_equal. lia.
Qed.

(** A string of a token list is the string of one lexeme. *)
Definition strung (l : list token) : Prop :=
  forall p a q, l = p ++ a :: q -> t_kind a = STRING_OPEN ->
  exists x r, is_string x = true /\ whole_string x /\ a :: q = string_tokens x ++ r.
Definition atoms_classed (l : list token) : Prop :=
  Forall (fun t => atomic (t_kind t) = true -> kind_of (t_text t) = t_kind t) l.
Lemma app_middle {A} (p : list A) : forall a q x y, p ++ a :: q = x ++ y ->
  (exists p', p = x ++ p' /\ y = p' ++ a :: q) \/ (exists x', x = p ++ a :: x' /\ q = x' ++ y).
Proof.
  induction p as [|b p IH]; intros a q x y E.
  - destruct x as [|c x]; cbn [app] in E.
    + left. exists []. split; [reflexivity|symmetry; exact E].
    + injection E as -> ->. right. exists x. auto.
  - destruct x as [|c x]; cbn [app] in E.
    + left. exists (b :: p). split; [reflexivity|symmetry; exact E].
    + injection E as -> E. destruct (IH _ _ _ _ E) as [[p' [-> ->]]|[x' [-> ->]]];
      [left; exists p'|right; exists x']; split; reflexivity.
Qed.
Lemma r_tokens_strung n : forall s m, (List.length m <= n)%nat -> Forall (fun x => whole_string (fst x)) m ->
  strung (map fst (r_tokens s m)).
Proof.
  induction n as [|n IH]; intros s m L W.
  { destruct m; [|cbn in L; lia]. intros [|? ?] ? ? E; discriminate E. }
  destruct m as [|[x b] r]; [intros [|? ?] ? ? E; discriminate E|]. inversion W as [|? ? W1 W2]; subst. cbn [fst] in W1.
  destruct (r_tokens_step s x b r) as [[s' ->]|[y [b' [r' [s' [-> [Kx [Ky ->]]]]]]]]; cbn [List.length] in L.
  - rewrite map_app, first_marked_fst. intros p a q E K. symmetry in E.
    destruct (app_middle _ _ _ _ _ E) as [[p' [_ F]]|[x' [F ->]]].
    { exact (IH s' r ltac:(lia) W2 p' a q F K). }
    unfold lexeme_tokens in F.
    destruct (kind_of x) eqn:Kx;
      try (destruct p as [|? p]; [injection F as <- _; discriminate K|destruct p; discriminate F]).
    exists x, (map fst (r_tokens s' r)). split; [exact (open_string x Kx)|]. split; [exact W1|].
    destruct (string_tokens_cases x) as [o [m [z [Sx M]]]]. rewrite Sx in *.
    destruct p as [|o' p]; [injection F as <- ->; reflexivity|]. exfalso. injection F as _ F.
    destruct M as [->|[c [_ ->]]]; cbn [app] in F.
    + destruct p as [|? p]; [injection F as <- _; discriminate K|destruct p; discriminate F].
    + destruct p as [|? [|? p]]; [injection F as <- _; discriminate K|injection F as _ <- _; discriminate K|].
      injection F as _ _ F. destruct p; discriminate F.
  - cbn [map fst]. intros [|t p] a q E K; [injection E as <- _; discriminate K|]. injection E as _ E.
    inversion W2; subst. eapply IH; [|eassumption|exact E|exact K]. lia.
Qed.
Lemma r_tokens_classed n : forall s m, (List.length m <= n)%nat -> atoms_classed (map fst (r_tokens s m)).
Proof.
  induction n as [|n IH]; intros s m L.
  { destruct m; [constructor|cbn in L; lia]. }
  destruct m as [|[x b] r]; [constructor|].
  destruct (r_tokens_step s x b r) as [[s' ->]|[y [b' [r' [s' [-> [Kx [Ky ->]]]]]]]]; cbn [List.length] in L.
  - rewrite map_app, first_marked_fst. apply Forall_app. split; [|apply IH; lia]. unfold lexeme_tokens.
    assert (P : Forall (fun t => atomic (t_kind t) = true -> kind_of (t_text t) = t_kind t) [tk (kind_of x) x])
      by (repeat constructor).
    destruct (kind_of x) eqn:K; try exact P.
    destruct (string_tokens_cases x) as [a [m [z [-> [->|[c [_ ->]]]]]]]; repeat constructor; discriminate.
  - cbn [map fst]. constructor; [discriminate|]. apply IH. lia.
Qed.

Lemma classed_tokens l p ts q : strung l -> atoms_classed l -> l = p ++ ts ++ q ->
  LexSpec.leaf_tokens ts -> atom_tokens ts -> classed_leaf ts.
Proof.
  intros S C E Lt [[t [-> A]]|[a [m [z [-> [Ka [Kz M]]]]]]].
  - unfold atoms_classed in C. rewrite E, !Forall_app in C. destruct C as [_ [C _]]. exact (Forall_inv C A).
  - rewrite <- app_comm_cons in E. destruct (S _ _ _ E Ka) as [x [r [St [W F]]]].
    destruct (string_tokens_cases x) as [a' [m' [z' [Sx M']]]].
    destruct (string_parts _ _ _ _ St W Sx) as [T _]. rewrite Sx in F.
    destruct m as [|b [|b' m]]; cbn [app LexSpec.leaf_tokens classed_leaf] in *.
    + injection F as -> F. destruct M' as [->|[c [_ ->]]]; injection F as -> F; [exact T|discriminate Kz].
    + injection F as -> F. destruct M as [M _]. destruct M' as [->|[c [N ->]]]; injection F as -> F.
      * exfalso. apply M. reflexivity.
      * rewrite F. split; [exact N|exact T].
    + destruct m; contradiction.
Qed.

Section Infix.
Variable l : list token.
Hypothesis Sl : strung l.
Hypothesis Cl : atoms_classed l.
Definition part (x : list token) : Prop := exists p q, l = p ++ x ++ q.
Lemma part_app a b : part (a ++ b) -> part a /\ part b.
Proof.
  intros [p [q E]]. split; [exists p, (b ++ q)|exists (p ++ a), q]; rewrite E, <- !app_assoc; reflexivity.
Qed.
Lemma part_cons a b : part (a :: b) -> part b.
Proof. intros H. exact (proj2 (part_app [a] b H)). Qed.
Lemma part_concat xs : part (List.concat xs) -> Forall part xs.
Proof.
  induction xs as [|x xs IH]; [constructor|]. cbn [List.concat]. intros H. apply part_app in H.
  constructor; [apply H|apply IH, H].
Qed.
Lemma part_commas xs : part (commas xs) -> Forall part xs.
Proof.
  induction xs as [|x [|y xs] IH]; [constructor|intros H; constructor; [exact H|constructor]|].
  intros H. change (part (x ++ tCOMMA :: commas (y :: xs))) in H. apply part_app in H.
  constructor; [apply H|]. apply IH. apply (part_cons _ _ (proj2 H)).
Qed.

Lemma classed_infix e : part (etokens e) -> forall eq, grammatical eq e -> everywhere lexical_node e ->
  everywhere classed_node e.
Proof.
  assert (All : forall xs, Forall (fun e => part (etokens e) -> forall eq, grammatical eq e ->
      everywhere lexical_node e -> everywhere classed_node e) xs ->
    Forall part (map etokens xs) -> forall eq, all_of (grammatical eq) xs -> all_of (everywhere lexical_node) xs ->
    all_of (everywhere classed_node) xs).
  { induction 1 as [|x xs H F IH]; intros P eq G X; [exact I|]. inversion P; subst.
    destruct G, X. split; [eapply H; eassumption|eapply IH; eassumption]. }
  assert (Opt : forall x, Popt (fun e => part (etokens e) -> forall eq, grammatical eq e ->
      everywhere lexical_node e -> everywhere classed_node e) x ->
    part (opt_list etokens x) -> forall eq, opt_all (grammatical eq) x -> opt_all (everywhere lexical_node) x ->
    opt_all (everywhere classed_node) x).
  { intros [x|] H P eq G X; [exact (H P eq G X)|exact I]. }
  induction e using expr_ind'; intros P eq G [[Lx _] L]; cbn [etokens grammatical everywhere tokens_lexical] in *.
  { split; [|exact I]. destruct P as [p [q E]]. exact (classed_tokens l p ts q Sl Cl E Lx G). }
  all: split; [exact I|].
  all: repeat match goal with
    | H : part (_ :: _) |- _ => apply part_cons in H
    | H : part (_ ++ _) |- _ => apply part_app in H
    | H : _ /\ _ |- _ => destruct H
    end;
    repeat match goal with |- _ /\ _ => split end;
    repeat match goal with
    | H : part (commas _) |- _ => apply part_commas in H
    | H : part (List.concat _) |- _ => apply part_concat in H
    end; eauto.
Qed.
End Infix.
