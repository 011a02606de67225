(** Facts about R's lexer. *)
From Coq Require Import List NArith Bool Arith Lia String.
From Verif Require Import Text TextFacts LineEndingSpec LineEndingProofs SyntaxKind FmtTree IrModel
  FmtSpec LexSpec.
Import ListNotations.
Open Scope N_scope.

Definition held (p : place) : list text :=
  match p with Between => [] | Inside _ t => [t] end.
Definition in_comment (l : lexing) : bool := match l with LComment => true | _ => false end.

(** A lexeme that may end here, and does before any of the characters. *)
Definition lets (f : char -> bool) (p : place) : Prop :=
  match p with
  | Between => True
  | Inside l _ =>
    complete_lexeme l = true /\ in_comment l = false /\ forall c, f c = true -> extend l c = None
  end.
Lemma lets_mono (f g : char -> bool) p :
  (forall c, g c = true -> f c = true) -> lets f p -> lets g p.
Proof. intros M. destruct p; [auto|]. intros [A [B C]]. repeat split; auto. Qed.
Lemma lets_between f : lets f Between.
Proof. exact I. Qed.

(** * One pass *)

Lemma see_all_app a : forall p b, see_all p (a ++ b) =
  match see_all p a with
  | Some (x, p') => match see_all p' b with Some (y, p'') => Some (x ++ y, p'') | None => None end
  | None => None
  end.
Proof.
  induction a as [|c a IH]; intros p b; cbn [app see_all].
  - destruct (see_all p b) as [[y p'']|]; reflexivity.
  - destruct (see p c) as [[x p1]|]; [|reflexivity]. rewrite IH.
    destruct (see_all p1 a) as [[x1 p2]|]; [|reflexivity].
    destruct (see_all p2 b) as [[y p3]|]; [|reflexivity]. rewrite app_assoc. reflexivity.
Qed.

(** No operator has a blank in it. *)
Definition starts : list text := $"<<" :: operators.
Lemma op_prefix_In t : op_prefix t = true <-> In t starts.
Proof.
  unfold op_prefix. rewrite existsb_exists. split.
  - intros [u [I E]]. apply text_eqb_eq in E. subst. exact I.
  - intros I. exists t. split; [exact I|]. apply text_eqb_eq. reflexivity.
Qed.
Fixpoint strip (t u : text) : option text :=
  match t, u with
  | [], _ => Some u
  | c :: t, d :: u => if c =? d then strip t u else None
  | _, [] => None
  end.
Lemma strip_app t u : strip t (t ++ u) = Some u.
Proof. induction t as [|c t IH]; [reflexivity|]. cbn [strip app]. rewrite N.eqb_refl. exact IH. Qed.
(** The operator [t] ends before every character of [f]. *)
Definition op_free (f : char -> bool) (t : text) : bool :=
  forallb (fun u => match strip t u with Some [c] => negb (f c) | _ => true end) starts.
Lemma op_free_sound f t c : op_free f t = true -> f c = true -> extend (LOperator t) c = None.
Proof.
  intros H Fc. cbn [extend]. destruct (op_prefix (t ++ [c])) eqn:E; [|reflexivity].
  apply op_prefix_In in E. unfold op_free in H. rewrite forallb_forall in H.
  specialize (H _ E). rewrite strip_app, Fc in H. discriminate.
Qed.
Lemma starts_unblank t : In t starts -> forallb (fun c => negb (blank c)) t = true.
Proof.
  assert (H : forallb (forallb (fun c => negb (blank c))) starts = true) by reflexivity.
  rewrite forallb_forall in H. apply H.
Qed.

Lemma in_cases c (l : list char) : existsb (N.eqb c) l = true -> In c l.
Proof. intros H. apply existsb_exists in H. destruct H as [d [I E]]. apply N.eqb_eq in E. subst. exact I. Qed.

Lemma blank_cases c : blank c = true ->
  (9 <= c /\ c <= 13) \/ c = 32 \/ c = 59 \/ c = 65279.
Proof.
  unfold blank. rewrite !orb_true_iff, andb_true_iff, !N.leb_le, !N.eqb_eq. tauto.
Qed.
Ltac chars :=
  unfold name_char, letter, digit, hex_digit, quote, sign, blank, atom_char, DOT, QUOTE, TICK, BACKTICK, ESCAPE, HASH,
    PERCENT, DASH, LF, CR in *;
  repeat match goal with
  | H : context [N.eqb ?a ?b] |- _ => destruct (N.eqb_spec a b); try subst
  | H : context [N.leb ?a ?b] |- _ => destruct (N.leb_spec a b)
  | |- context [N.eqb ?a ?b] => destruct (N.eqb_spec a b); try subst
  | |- context [N.leb ?a ?b] => destruct (N.leb_spec a b)
  end; cbn [andb orb negb] in *.

Lemma blank_not_name c : blank c = true -> name_char c = false.
Proof.
  intros H. pose proof (blank_cases c H) as B. unfold name_char, letter, digit. rewrite H.
  cbn [negb]. rewrite andb_false_r, orb_false_r.
  destruct B as [B|[->|[->| ->]]]; try reflexivity.
  unfold DOT. repeat match goal with
  | |- context [N.eqb ?a ?b] => destruct (N.eqb_spec a b); [lia|]
  | |- context [N.leb ?a ?b] => destruct (N.leb_spec a b)
  end; cbn; try reflexivity; lia.
Qed.
Lemma name_char_false c : name_char c = false ->
  letter c = false /\ digit c = false /\ (c =? DOT) = false /\ (c =? 95) = false.
Proof.
  unfold name_char. intros H. rewrite !orb_false_iff in H. tauto.
Qed.

(** A character that is neither a letter, a digit, a dot nor a quote ends any
    name and any number. *)
Definition apart (c : char) : bool := negb (name_char c) && negb (quote c).
Definition atomic (l : lexing) : bool :=
  match l with LSpecial | LComment | LOperator _ => false | _ => true end.
Lemma not_letter c k : letter c = false -> (65 <= k <= 90 \/ 97 <= k <= 122) -> (c =? k) = false.
Proof.
  intros H K. apply N.eqb_neq. intros ->. unfold letter in H.
  destruct (N.leb_spec 65 k), (N.leb_spec k 90), (N.leb_spec 97 k), (N.leb_spec k 122);
    cbn in H; try discriminate; lia.
Qed.
Lemma not_hex c : letter c = false -> digit c = false -> hex_digit c = false.
Proof.
  intros L D. unfold hex_digit. rewrite D. cbn [orb].
  destruct ((65 <=? c) && (c <=? 70)) eqn:A.
  { exfalso. apply andb_true_iff in A. rewrite !N.leb_le in A. unfold letter in L.
    destruct (N.leb_spec 65 c), (N.leb_spec c 90); cbn in L; try discriminate; lia. }
  destruct ((97 <=? c) && (c <=? 102)) eqn:B; [|reflexivity].
  exfalso. apply andb_true_iff in B. rewrite !N.leb_le in B. unfold letter in L.
  destruct (N.leb_spec 97 c), (N.leb_spec c 122); rewrite ?orb_true_r in L; cbn in L; try discriminate; lia.
Qed.
Lemma apart_ends l c : atomic l = true -> complete_lexeme l = true -> apart c = true ->
  extend l c = None.
Proof.
  intros A C H. unfold apart in H. apply andb_true_iff in H. destruct H as [N Q].
  apply negb_true_iff in N, Q. pose proof (name_char_false c N) as [L [D [Dt _]]].
  assert (X : forall k, (65 <= k <= 90 \/ 97 <= k <= 122) -> (c =? k) = false)
    by (intros k; apply not_letter, L).
  assert (S : suffix c = None).
  { unfold suffix. rewrite (X 76), (X 105) by lia. reflexivity. }
  assert (Nu : in_number c = None).
  { unfold in_number. rewrite D, Dt, (X 101), (X 69) by lia. exact S. }
  assert (Na : in_name c = None) by (unfold in_name; rewrite N; reflexivity).
  destruct l; try discriminate; cbn [extend]; rewrite ?D, ?Q, ?Na, ?Nu, ?S; try reflexivity.
  - rewrite (X 120), (X 88) by lia. reflexivity.
  - rewrite (not_hex c L D), Dt, (X 112), (X 80) by lia. reflexivity.
Qed.
Lemma blank_not_quote c : blank c = true -> quote c = false.
Proof.
  intros H. apply blank_cases in H. unfold quote, QUOTE, TICK.
  destruct (N.eqb_spec c 34), (N.eqb_spec c 39); try reflexivity; lia.
Qed.
Lemma blank_apart c : blank c = true -> apart c = true.
Proof. intros H. unfold apart. rewrite (blank_not_name c H), (blank_not_quote c H). reflexivity. Qed.
(** A blank ends every lexeme that may end, but a comment. *)
Lemma blank_ends l c : complete_lexeme l = true -> in_comment l = false -> blank c = true ->
  extend l c = None.
Proof.
  intros C N B. destruct (atomic l) eqn:A; [apply apart_ends; auto using blank_apart|].
  destruct l; try discriminate. cbn [extend]. destruct (op_prefix (t ++ [c])) eqn:E; [|reflexivity].
  apply op_prefix_In, starts_unblank in E. rewrite forallb_app in E. cbn in E. rewrite B in E.
  rewrite andb_false_r in E. discriminate.
Qed.
Lemma see_blank p c : lets (fun _ => false) p -> blank c = true -> see p c = Some (held p, Between).
Proof.
  intros L B. destruct p as [|l t]; cbn [see].
  - unfold begin. rewrite B. reflexivity.
  - destruct L as [C [N _]]. rewrite (blank_ends l c C N B), C. unfold begin. rewrite B. reflexivity.
Qed.
Lemma see_blanks s : forall p, lets (fun _ => false) p -> forallb blank s = true -> s <> [] ->
  see_all p s = Some (held p, Between).
Proof.
  induction s as [|c s IH]; intros p L B N; [contradiction|]. cbn [forallb] in B.
  apply andb_true_iff in B. destruct B as [Bc Bs]. cbn [see_all]. rewrite (see_blank p c L Bc).
  destruct s as [|d s]; [cbn [see_all]; rewrite app_nil_r; reflexivity|].
  rewrite (IH Between I Bs) by discriminate. cbn [held]. rewrite app_nil_r. reflexivity.
Qed.

(** * Lexemes by themselves *)

Definition whole (s : text) (l : lexing) : Prop :=
  see_all Between s = Some ([], Inside l s) /\ complete_lexeme l = true.
(** Reading the lexeme again from its start gets to the same place. *)
Definition fresh (p : place) : Prop :=
  match p with Between => True | Inside l t => see_all Between t = Some ([], Inside l t) end.
Lemma begin_fresh c p : begin c = Some p -> fresh p.
Proof.
  unfold begin. destruct (blank c) eqn:B; [intros E; injection E as <-; exact I|].
  destruct (start c) as [l|] eqn:S; [|discriminate]. intros E. injection E as <-.
  cbn [fresh see_all see]. unfold begin. rewrite B, S. reflexivity.
Qed.
Lemma see_fresh p c a p' : fresh p -> see p c = Some (a, p') -> fresh p'.
Proof.
  intros F. destruct p as [|l t]; cbn [see].
  - destruct (begin c) eqn:B; [|discriminate]. intros E. injection E as _ <-. exact (begin_fresh c _ B).
  - destruct (extend l c) as [l'|] eqn:X.
    + intros E. injection E as _ <-. cbn [fresh] in *. rewrite see_all_app, F.
      cbn [see_all see]. rewrite X. reflexivity.
    + destruct (complete_lexeme l); [|discriminate]. destruct (begin c) eqn:B; [|discriminate].
      intros E. injection E as _ <-. exact (begin_fresh c _ B).
Qed.
Lemma see_all_fresh s : forall p a p', fresh p -> see_all p s = Some (a, p') -> fresh p'.
Proof.
  induction s as [|c s IH]; intros p a p' F H; cbn [see_all] in H; [injection H as _ <-; exact F|].
  destruct (see p c) as [[x p1]|] eqn:S; [|discriminate].
  destruct (see_all p1 s) as [[y p2]|] eqn:R; [|discriminate]. injection H as _ <-.
  exact (IH p1 y p2 (see_fresh _ _ _ _ F S) R).
Qed.

Definition total (L : list text) : nat := List.length (List.concat L).
Lemma total_app a b : total (a ++ b) = (total a + total b)%nat.
Proof. unfold total. rewrite concat_app, app_length. reflexivity. Qed.
Definition lost (p : place) (s : text) : nat :=
  match p, s with Between, _ :: _ => 1%nat | _, _ => 0%nat end.
Lemma begin_total c p : begin c = Some p -> (total (held p) + lost p [c] <= 1)%nat.
Proof.
  unfold begin. destruct (blank c); [intros E; injection E as <-; cbn; lia|].
  destruct (start c); [|discriminate]. intros E. injection E as <-. cbn. lia.
Qed.
Lemma see_total p c a p' : see p c = Some (a, p') ->
  (total a + total (held p') + lost p' [c] <= total (held p) + 1)%nat.
Proof.
  destruct p as [|l t]; cbn [see].
  - destruct (begin c) eqn:B; [|discriminate]. intros E. injection E as <- <-.
    pose proof (begin_total c _ B). cbn [held total List.concat List.length]. cbn. lia.
  - destruct (extend l c) as [l'|] eqn:X.
    + intros E. injection E as <- <-. unfold total. cbn. rewrite !app_nil_r, app_length. cbn. lia.
    + destruct (complete_lexeme l); [|discriminate]. destruct (begin c) eqn:B; [|discriminate].
      intros E. injection E as <- <-. pose proof (begin_total c _ B). cbn [held]. lia.
Qed.
Lemma see_all_total s : forall p a p', see_all p s = Some (a, p') ->
  (total a + total (held p') + lost p' s <= total (held p) + List.length s)%nat.
Proof.
  induction s as [|c s IH]; intros p a p' H; cbn [see_all] in H.
  - injection H as <- <-. destruct p; cbn; lia.
  - destruct (see p c) as [[x p1]|] eqn:S; [|discriminate].
    destruct (see_all p1 s) as [[y p2]|] eqn:R; [|discriminate]. injection H as <- <-.
    apply see_total in S. rewrite total_app. cbn [List.length].
    destruct s as [|d s].
    + cbn [see_all] in R. injection R as <- <-. cbn [total List.concat List.length].
      unfold lost in *. destruct p1; cbn in *; lia.
    + apply IH in R. unfold lost in *. destruct p2; cbn [List.length] in *; destruct p1; lia.
Qed.
(** No character is lost between lexemes. *)
Lemma see_kept p c a p' : see p c = Some (a, p') ->
  (total a + total (held p') = total (held p) + 1)%nat ->
  p' <> Between /\ List.concat (a ++ held p') = List.concat (held p) ++ [c].
Proof.
  intros H T. split.
  - intros ->. apply see_total in H. cbn [lost] in H. lia.
  - destruct p as [|l t]; cbn [see] in H.
    + destruct (begin c) eqn:B; [|discriminate]. injection H as <- <-. unfold begin in B.
      destruct (blank c); [injection B as <-; discriminate T|]. destruct (start c); [|discriminate].
      injection B as <-. reflexivity.
    + destruct (extend l c) as [l'|] eqn:X.
      * injection H as <- <-. cbn. rewrite !app_nil_r. reflexivity.
      * destruct (complete_lexeme l); [|discriminate]. destruct (begin c) eqn:B; [|discriminate].
        injection H as <- <-. unfold begin in B.
        destruct (blank c); [injection B as <-; unfold total in T; cbn in T; lia|].
        destruct (start c); [|discriminate]. injection B as <-. cbn. rewrite !app_nil_r. reflexivity.
Qed.
Lemma see_all_kept s : forall p a p', see_all p s = Some (a, p') ->
  (total a + total (held p') = total (held p) + List.length s)%nat ->
  (s <> [] -> p' <> Between) /\ List.concat (a ++ held p') = List.concat (held p) ++ s.
Proof.
  induction s as [|c s IH]; intros p a p' H T; cbn [see_all] in H.
  - injection H as <- <-. split; [contradiction|]. rewrite app_nil_r. reflexivity.
  - destruct (see p c) as [[x p1]|] eqn:S; [|discriminate].
    destruct (see_all p1 s) as [[y p2]|] eqn:R; [|discriminate]. injection H as <- <-.
    rewrite total_app in T. cbn [List.length] in T. pose proof (see_total _ _ _ _ S) as T1.
    pose proof (see_all_total _ _ _ _ R) as T2.
    destruct (see_kept _ _ _ _ S ltac:(lia)) as [N E]. destruct (IH _ _ _ R ltac:(lia)) as [N2 E2].
    split.
    + intros _. destruct s; [injection R as _ <-; exact N|apply N2; discriminate].
    + rewrite concat_app in E. rewrite <- app_assoc, concat_app, E2, (app_assoc (List.concat x)), E, <- app_assoc. reflexivity.
Qed.
(** The beginning of a lexeme. *)
Lemma see_all_prefix x y l s : see_all Between (x ++ y) = Some ([], Inside l s) ->
  (List.length s = List.length x + List.length y)%nat -> x <> [] ->
  exists l1, see_all Between x = Some ([], Inside l1 x) /\ see_all (Inside l1 x) y = Some ([], Inside l s).
Proof.
  intros H T N. rewrite see_all_app in H. destruct (see_all Between x) as [[a p1]|] eqn:S; [|discriminate].
  destruct (see_all p1 y) as [[b p2]|] eqn:R; [|discriminate]. injection H as E ->.
  apply app_eq_nil in E. destruct E as [-> ->].
  pose proof (see_all_total _ _ _ _ S) as T1. pose proof (see_all_total _ _ _ _ R) as T2.
  assert (Ts : total (held (Inside l s)) = List.length s)
    by (unfold total; cbn; rewrite app_nil_r; reflexivity).
  destruct (see_all_kept _ _ _ _ S ltac:(cbn [total held List.concat List.length] in *; lia)) as [N1 C1].
  destruct p1 as [|l1 t1]; [destruct (N1 N eq_refl)|]. exists l1.
  cbn in C1. rewrite app_nil_r in C1. subst t1. split; [reflexivity|exact R].
Qed.
Lemma one_whole s : one_lexeme s -> exists l, whole s l.
Proof.
  unfold one_lexeme, lex. destruct (see_all Between s) as [[a p]|] eqn:S; [|discriminate].
  destruct p as [|l t]; cbn [the_end].
  - intros E. injection E as E. rewrite app_nil_r in E. subst a.
    destruct s as [|c s]; [discriminate|]. apply see_all_total in S.
    cbn in S; unfold total in S; cbn in S; rewrite app_nil_r in S; lia.
  - destruct (complete_lexeme l) eqn:C; [|discriminate]. intros E. injection E as E.
    destruct a as [|x [|y a]]; try discriminate.
    injection E as ->. exists l. split; assumption.
Qed.
Lemma whole_one s l : whole s l -> one_lexeme s.
Proof. intros [S C]. unfold one_lexeme, lex. rewrite S. cbn [the_end]. rewrite C. reflexivity. Qed.
Lemma whole_unique s l l' : whole s l -> whole s l' -> l = l'.
Proof. intros [A _] [B _]. rewrite A in B. injection B as ->. reflexivity. Qed.
Lemma whole_cons s l : whole s l -> exists c r, s = c :: r /\ blank c = false.
Proof.
  intros [S C]. destruct s as [|c r]; [discriminate|]. exists c, r. split; [reflexivity|].
  destruct (blank c) eqn:B; [|reflexivity]. cbn [see_all see] in S. unfold begin in S. rewrite B in S.
  destruct (see_all Between r) as [[y p2]|] eqn:R; [|discriminate]. injection S as -> ->.
  apply see_all_total in R. unfold total in R. cbn in R. rewrite app_nil_r in R. lia.
Qed.

(** Entering a lexeme. *)
Definition blocks (p : place) (c : char) : Prop :=
  match p with
  | Between => True
  | Inside l _ => complete_lexeme l = true /\ extend l c = None
  end.
Lemma lets_blocks f p c : lets f p -> f c = true -> blocks p c.
Proof. destruct p; [intros; exact I|]. intros [A [_ B]] F. split; [exact A|exact (B c F)]. Qed.
Lemma see_blocked p c : blocks p c ->
  see p c = match begin c with Some p' => Some (held p, p') | None => None end.
Proof. destruct p as [|l t]; [reflexivity|]. intros [A B]. cbn [see]. rewrite B, A. reflexivity. Qed.
Lemma enter p c r : blocks p c ->
  see_all p (c :: r) =
  match see_all Between (c :: r) with Some (x, p') => Some (held p ++ x, p') | None => None end.
Proof.
  intros B. cbn [see_all]. rewrite (see_blocked p c B), (see_blocked Between c I).
  destruct (begin c) as [p1|]; [|reflexivity].
  destruct (see_all p1 r) as [[y p2]|]; reflexivity.
Qed.

(** * Where an atom ends *)

Lemma extend_atomic l c l' : atomic l = true -> extend l c = Some l' -> atomic l' = true.
Proof.
  assert (S : forall x y, suffix x = Some y -> atomic y = true)
    by (intros x y; unfold suffix; destruct (_ || _); [intros E; injection E as <-; reflexivity|discriminate]).
  assert (Nu : forall x y, in_number x = Some y -> atomic y = true).
  { intros x y. unfold in_number. destruct (_ || _); [intros E; injection E as <-; reflexivity|].
    destruct (_ || _); [intros E; injection E as <-; reflexivity|apply S]. }
  assert (Na : forall x y, in_name x = Some y -> atomic y = true)
    by (intros x y; unfold in_name; destruct (name_char x); [intros E; injection E as <-; reflexivity|discriminate]).
  intros A. destruct l; try discriminate; cbn [extend];
    repeat match goal with
    | |- (if ?b then _ else _) = _ -> _ => destruct b
    | |- match bracket c with _ => _ end = _ -> _ => destruct (bracket c)
    end;
    try (intros E; injection E as <-; repeat match goal with |- context [if ?b then _ else _] => destruct b end; reflexivity);
    try discriminate; eauto.
Qed.
Lemma start_atomic c l : atom_char c = true -> start c = Some l -> atomic l = true.
Proof.
  intros A. unfold start.
  repeat match goal with |- (if ?b then _ else _) = _ -> _ => let E := fresh in destruct b eqn:E;
    [try (intros X; injection X as <-; reflexivity)|] end; try discriminate; intros _; exfalso.
  all: unfold atom_char, name_char in A; apply N.eqb_eq in H5 || idtac.
  all: try (apply N.eqb_eq in H5; subst c; discriminate A).
  all: repeat match goal with
       | H : (_ || _) = false |- _ => apply orb_false_iff in H; destruct H
       end.
  all: repeat match goal with H : _ = false |- _ => rewrite H in A end; discriminate A.
Qed.
Lemma see_all_atomic r : forall l t l' t', atomic l = true ->
  see_all (Inside l t) r = Some ([], Inside l' t') -> List.length t' = (List.length t + List.length r)%nat ->
  atomic l' = true.
Proof.
  induction r as [|c r IH]; intros l t l' t' A H Len; cbn [see_all] in H.
  - injection H as <- _. exact A.
  - cbn [see] in H. destruct (extend l c) as [l1|] eqn:X.
    + destruct (see_all (Inside l1 (t ++ [c])) r) as [[y p]|] eqn:R; [|discriminate].
      injection H as -> ->.
      refine (IH l1 (t ++ [c]) l' t' (extend_atomic _ _ _ A X) R _). rewrite Len, app_length. cbn. lia.
    + destruct (complete_lexeme l); [|discriminate]. destruct (begin c); [|discriminate].
      destruct (see_all _ r) as [[y q]|]; [|discriminate]. discriminate.
Qed.
Lemma atom_atomic s l : whole s l -> starts_with atom_char s -> atomic l = true.
Proof.
  intros [S C] A. destruct s as [|c r]; [contradiction|]. cbn [starts_with] in A.
  cbn [see_all see] in S. unfold begin in S. destruct (blank c) eqn:B.
  - exfalso. destruct (see_all Between r) as [[y p2]|] eqn:R; [|discriminate]. injection S as -> ->.
    apply see_all_total in R. unfold total in R. cbn in R. rewrite app_nil_r in R. lia.
  - destruct (start c) as [l0|] eqn:St; [|discriminate].
    destruct (see_all (Inside l0 [c]) r) as [[y p]|] eqn:R; [|discriminate]. injection S as -> ->.
    refine (see_all_atomic r l0 [c] l (c :: r) (start_atomic c l0 A St) R eq_refl).
Qed.

(** The characters that may follow, close to it, a finished expression. *)
Definition follow_char (c : char) : bool :=
  existsb (N.eqb c) ($"([$@:^*?,)]}").
(** The characters an expression may start with, and those that close. *)
Definition start_char (c : char) : bool :=
  atom_char c || existsb (N.eqb c) ($"({-+!~?\)]},").
Definition close_char (c : char) : bool := existsb (N.eqb c) ($",)]}").
Definition no_char (c : char) : bool := false.

Lemma follow_apart c : follow_char c = true -> apart c = true.
Proof.
  intros H. apply in_cases in H.
  assert (X : forallb apart ($"([$@:^*?,)]}") = true) by reflexivity.
  rewrite forallb_forall in X. exact (X c H).
Qed.
Lemma close_follow c : close_char c = true -> follow_char c = true.
Proof.
  intros H. apply in_cases in H.
  assert (X : forallb follow_char ($",)]}") = true) by reflexivity.
  rewrite forallb_forall in X. exact (X c H).
Qed.
Lemma close_start c : close_char c = true -> start_char c = true.
Proof.
  intros H. apply in_cases in H.
  assert (X : forallb start_char ($",)]}") = true) by reflexivity.
  rewrite forallb_forall in X. exact (X c H).
Qed.
Lemma atom_ended s l : whole s l -> starts_with atom_char s -> lets follow_char (Inside l s).
Proof.
  intros W A. pose proof (atom_atomic s l W A) as At. destruct W as [_ C].
  split; [exact C|]. split; [destruct l; (reflexivity || discriminate)|].
  intros c F. apply apart_ends; [exact At|exact C|apply follow_apart, F].
Qed.
Lemma op_lets f t : existsb (text_eqb t) operators = true -> op_free f t = true ->
  lets f (Inside (LOperator t) t).
Proof. intros O F. split; [exact O|]. split; [reflexivity|]. intros c. apply op_free_sound, F. Qed.

(** * Normalised line endings *)

(** Comments may lose a CR, other lexemes are normalised. *)
Definition like_lexeme (a b : text) : Prop :=
  if is_comment a then is_comment b = true else b = drop_cr a.
Lemma like_code L L' : Forall2 like_lexeme L L' -> 
  (forall x, In x L -> is_comment x = false -> is_comment (drop_cr x) = false) ->
  code L' = map drop_cr (code L).
Proof.
  induction 1 as [|a b L L' H F IH]; intros K; [reflexivity|]. cbn [code filter].
  fold (code L) (code L'). unfold like_lexeme in H. destruct (is_comment a) eqn:E.
  - rewrite H. cbn [negb]. apply IH. intros x I. apply K. right. exact I.
  - subst b. rewrite (K a (or_introl eq_refl) E). cbn [negb map]. f_equal.
    apply IH. intros x I. apply K. right. exact I.
Qed.
Lemma is_comment_drop x : is_comment (drop_cr x) = true -> is_comment x = true.
Proof.
  destruct x as [|c x]; [discriminate|]. rewrite drop_cr_cons.
  destruct (crlf_head c x) eqn:E; [|auto].
  apply crlf_head_true in E. destruct E as [r [-> ->]]. rewrite drop_cr_LF. discriminate.
Qed.
Lemma is_comment_dropped x : is_comment x = true -> is_comment (drop_cr x) = true.
Proof.
  destruct x as [|c x]; [discriminate|]. cbn [is_comment]. intros E. apply N.eqb_eq in E. subst c.
  rewrite drop_cr_other by discriminate. reflexivity.
Qed.
Lemma is_comment_same x : is_comment (drop_cr x) = is_comment x.
Proof.
  destruct (is_comment x) eqn:E; [apply is_comment_dropped, E|].
  destruct (is_comment (drop_cr x)) eqn:F; [apply is_comment_drop in F; congruence|reflexivity].
Qed.

Definition ends_cr (t : text) : bool := match rev t with c :: _ => c =? CR | [] => false end.
Lemma drop_cr_snoc t c : (ends_cr t = true -> c <> LF) -> drop_cr (t ++ [c]) = drop_cr t ++ [c].
Proof.
  induction t as [|d t IH]; intros H.
  - cbn [app]. rewrite drop_cr_cons. unfold crlf_head. destruct (c =? CR); reflexivity.
  - cbn [app]. rewrite !drop_cr_cons.
    assert (E : crlf_head d (t ++ [c]) = crlf_head d t).
    { unfold crlf_head. destruct t as [|e t]; [|reflexivity]. cbn [app].
      destruct (d =? CR) eqn:Ed; [|destruct (c =? LF); reflexivity].
      destruct (N.eqb_spec c LF); [|reflexivity].
      exfalso. apply H; [|assumption]. unfold ends_cr. cbn. exact Ed. }
    rewrite E.
    assert (IHt : drop_cr (t ++ [c]) = drop_cr t ++ [c]).
    { apply IH. intros K. apply H. unfold ends_cr in *. cbn [rev].
      destruct (rev t); [discriminate|exact K]. }
    rewrite IHt. destruct (crlf_head d t); reflexivity.
Qed.
Lemma drop_cr_crlf_end t : drop_cr (t ++ [CR; LF]) = drop_cr t ++ [LF].
Proof.
  induction t as [|d t IH]; [reflexivity|]. cbn [app]. rewrite !drop_cr_cons.
  assert (E : crlf_head d (t ++ [CR; LF]) = crlf_head d t).
  { unfold crlf_head. destruct t as [|e t]; [|reflexivity]. cbn [app].
    destruct (d =? CR); reflexivity. }
  rewrite E, IH. destruct (crlf_head d t); reflexivity.
Qed.
Lemma ends_cr_snoc t c : ends_cr (t ++ [c]) = (c =? CR).
Proof. unfold ends_cr. rewrite rev_app_distr. reflexivity. Qed.
Lemma drop_cr_not_nil t : t <> [] -> drop_cr t <> [].
Proof.
  destruct t as [|c t]; [contradiction|]. intros _. rewrite drop_cr_cons.
  destruct (crlf_head c t) eqn:E; [|discriminate].
  apply crlf_head_true in E. destruct E as [r [_ ->]]. rewrite drop_cr_LF. discriminate.
Qed.

Definition norm_place (p : place) : place :=
  match p with Between => Between | Inside l t => Inside l (drop_cr t) end.
Definition place_ends_cr (p : place) : bool :=
  match p with Between => false | Inside _ t => ends_cr t end.
(** A comment is one from its first character on. *)
Definition marked (p : place) : Prop :=
  match p with Between => True | Inside l t => t <> [] /\ in_comment l = is_comment t end.
Lemma start_comment c l : start c = Some l -> in_comment l = (c =? HASH).
Proof.
  unfold start. intros H.
  repeat match type of H with (if ?b then _ else _) = _ => let E := fresh "E" in destruct b eqn:E end;
    try discriminate; injection H as <-; cbn [in_comment]; try (symmetry; assumption).
  all: try reflexivity; symmetry; apply N.eqb_neq; intros ->; discriminate.
Qed.
Lemma extend_comment l c l' : extend l c = Some l' -> in_comment l' = in_comment l.
Proof.
  assert (S : forall x y, suffix x = Some y -> in_comment y = false)
    by (intros x y; unfold suffix; destruct (_ || _); [intros E; injection E as <-; reflexivity|discriminate]).
  assert (Nu : forall x y, in_number x = Some y -> in_comment y = false).
  { intros x y. unfold in_number. destruct (_ || _); [intros E; injection E as <-; reflexivity|].
    destruct (_ || _); [intros E; injection E as <-; reflexivity|apply S]. }
  assert (Na : forall x y, in_name x = Some y -> in_comment y = false)
    by (intros x y; unfold in_name; destruct (name_char x); [intros E; injection E as <-; reflexivity|discriminate]).
  destruct l; cbn [extend];
    repeat match goal with
    | |- (if ?b then _ else _) = _ -> _ => destruct b
    | |- match bracket c with _ => _ end = _ -> _ => destruct (bracket c)
    end;
    try (intros E; injection E as <-; repeat match goal with |- context [if ?b then _ else _] => destruct b end; reflexivity);
    try discriminate; cbn [in_comment]; eauto.
Qed.
Lemma begin_marked c p : begin c = Some p -> marked p.
Proof.
  unfold begin. destruct (blank c); [intros E; injection E as <-; exact I|].
  destruct (start c) as [l|] eqn:S; [|discriminate]. intros E. injection E as <-.
  split; [discriminate|]. rewrite (start_comment c l S). reflexivity.
Qed.
Lemma see_marked p c a p' : marked p -> see p c = Some (a, p') -> marked p'.
Proof.
  intros M. destruct p as [|l t]; cbn [see].
  - destruct (begin c) eqn:B; [|discriminate]. intros E. injection E as _ <-. exact (begin_marked c _ B).
  - destruct (extend l c) as [l'|] eqn:X.
    + intros E. injection E as _ <-. destruct M as [N M]. split; [destruct t; discriminate|].
      rewrite (extend_comment _ _ _ X), M. destruct t; [contradiction|reflexivity].
    + destruct (complete_lexeme l); [|discriminate]. destruct (begin c) eqn:B; [|discriminate].
      intros E. injection E as _ <-. exact (begin_marked c _ B).
Qed.
Lemma see_all_marked s : forall p a p', marked p -> see_all p s = Some (a, p') -> marked p'.
Proof.
  induction s as [|c s IH]; intros p a p' F H; cbn [see_all] in H; [injection H as _ <-; exact F|].
  destruct (see p c) as [[x p1]|] eqn:S; [|discriminate].
  destruct (see_all p1 s) as [[y p2]|] eqn:R; [|discriminate]. injection H as _ <-.
  exact (IH p1 y p2 (see_marked _ _ _ _ F S) R).
Qed.
Lemma begin_norm c p : begin c = Some p -> norm_place p = p /\ (place_ends_cr p = true -> c = CR).
Proof.
  unfold begin. destruct (blank c) eqn:B; [intros E; injection E as <-; split; [reflexivity|discriminate]|].
  destruct (start c); [|discriminate]. intros E. injection E as <-. cbn [norm_place place_ends_cr].
  split; [|cbn; intros X; apply N.eqb_eq, X].
  rewrite drop_cr_cons. unfold crlf_head. destruct (c =? CR); reflexivity.
Qed.
Lemma like_drop t : like_lexeme t (drop_cr t).
Proof. unfold like_lexeme. destruct (is_comment t) eqn:E; [apply is_comment_dropped, E|reflexivity]. Qed.

(** One character that is not the CR or LF of a CR LF. *)
Lemma see_norm p c a p' : (place_ends_cr p = true -> c <> LF) -> see p c = Some (a, p') ->
  exists a', see (norm_place p) c = Some (a', norm_place p') /\ Forall2 like_lexeme a a' /\
    (place_ends_cr p' = true -> c = CR).
Proof.
  intros N. destruct p as [|l t]; cbn [see norm_place].
  - destruct (begin c) as [q|] eqn:B; [|discriminate]. intros E. injection E as <- <-.
    destruct (begin_norm c q B) as [-> K]. exists []. repeat split; [constructor|exact K].
  - destruct (extend l c) as [l'|] eqn:X.
    + intros E. injection E as <- <-. exists []. cbn [norm_place place_ends_cr].
      rewrite drop_cr_snoc by exact N. rewrite ends_cr_snoc.
      repeat split; [constructor|intros K; apply N.eqb_eq, K].
    + destruct (complete_lexeme l); [|discriminate]. destruct (begin c) as [q|] eqn:B; [|discriminate].
      intros E. injection E as <- <-. destruct (begin_norm c q B) as [-> K].
      exists [drop_cr t]. repeat split; [constructor; [apply like_drop|constructor]|exact K].
Qed.
(** CR LF against LF. *)
Definition sane (l : lexing) : bool :=
  let ok (c : char) := negb (c =? CR) && negb (c =? LF) in
  match l with
  | LQuoted q | LEscaped q | LOpening q _ => ok q
  | LRawText q _ b | LClosing q _ b _ => ok q && ok b
  | _ => true
  end.
Definition sane_place (p : place) : Prop :=
  match p with Between => True | Inside l _ => sane l = true end.
Lemma start_sane c l : start c = Some l -> sane l = true.
Proof.
  unfold start. intros H.
  repeat match type of H with (if ?b then _ else _) = _ => let E := fresh "E" in destruct b eqn:E end;
    try discriminate; injection H as <-; try reflexivity.
  cbn [sane]. unfold quote, QUOTE, TICK, BACKTICK in *.
  destruct (N.eqb_spec c CR); [subst; discriminate|]. destruct (N.eqb_spec c LF); [subst; discriminate|].
  reflexivity.
Qed.
Lemma bracket_ok c b : bracket c = Some b -> negb (b =? CR) && negb (b =? LF) = true.
Proof.
  unfold bracket. repeat match goal with |- (if ?x then _ else _) = _ -> _ => destruct x end;
    intros E; try discriminate; injection E as <-; reflexivity.
Qed.
Lemma quote_ok c : quote c = true -> negb (c =? CR) && negb (c =? LF) = true.
Proof.
  unfold quote, QUOTE, TICK. intros H. apply orb_true_iff in H.
  destruct H as [H|H]; apply N.eqb_eq in H; subst; reflexivity.
Qed.
Lemma extend_sane l c l' : sane l = true -> extend l c = Some l' -> sane l' = true.
Proof.
  assert (S : forall x y, suffix x = Some y -> sane y = true)
    by (intros x y; unfold suffix; destruct (_ || _); [intros E; injection E as <-; reflexivity|discriminate]).
  assert (Nu : forall x y, in_number x = Some y -> sane y = true).
  { intros x y. unfold in_number. destruct (_ || _); [intros E; injection E as <-; reflexivity|].
    destruct (_ || _); [intros E; injection E as <-; reflexivity|apply S]. }
  assert (Na : forall x y, in_name x = Some y -> sane y = true)
    by (intros x y; unfold in_name; destruct (name_char x); [intros E; injection E as <-; reflexivity|discriminate]).
  intros A. destruct l; cbn [extend]; cbn [sane] in A;
    repeat match goal with
    | |- (if ?b then _ else _) = _ -> _ => destruct b eqn:?
    | |- match bracket c with _ => _ end = _ -> _ => destruct (bracket c) eqn:?
    end;
    try (intros E; injection E as <-; repeat match goal with |- context [if ?b then _ else _] => destruct b end;
         first [reflexivity|exact A|cbn [sane]; auto using quote_ok]);
    try discriminate; eauto.
  - cbn [sane]. rewrite A. exact (bracket_ok _ _ Heqo).
Qed.
Lemma begin_sane c p : begin c = Some p -> sane_place p.
Proof.
  unfold begin. destruct (blank c); [intros E; injection E as <-; exact I|].
  destruct (start c) as [l|] eqn:S; [|discriminate]. intros E. injection E as <-.
  exact (start_sane c l S).
Qed.
Lemma see_sane p c a p' : sane_place p -> see p c = Some (a, p') -> sane_place p'.
Proof.
  intros M. destruct p as [|l t]; cbn [see].
  - destruct (begin c) eqn:B; [|discriminate]. intros E. injection E as _ <-. exact (begin_sane c _ B).
  - destruct (extend l c) as [l'|] eqn:X.
    + intros E. injection E as _ <-. exact (extend_sane _ _ _ M X).
    + destruct (complete_lexeme l); [|discriminate]. destruct (begin c) eqn:B; [|discriminate].
      intros E. injection E as _ <-. exact (begin_sane c _ B).
Qed.
Lemma extend_crlf l : sane l = true ->
  match extend l CR with
  | Some l1 =>
    match extend l1 LF with
    | Some l2 => extend l LF = Some l2
    | None => complete_lexeme l1 = true -> l = LComment /\ l1 = LComment
    end
  | None => complete_lexeme l = true -> extend l LF = None
  end.
Proof.
  assert (Op : forall t c, In c [CR; LF] -> op_prefix (t ++ [c]) = false).
  { intros t c I. destruct (op_prefix (t ++ [c])) eqn:E; [|reflexivity].
    apply op_prefix_In, starts_unblank in E. rewrite forallb_app in E. cbn in E.
    destruct I as [<-|[<-|[]]]; cbn in E; rewrite andb_false_r in E; discriminate. }
  intros Sa. destruct l; try (cbn; intros; reflexivity); try (cbn; intros; discriminate);
    try (cbn; auto; fail).
  - cbn [sane] in Sa. apply andb_true_iff in Sa. destruct Sa as [A B]. apply negb_true_iff in A, B.
    rewrite N.eqb_sym in A. rewrite N.eqb_sym in B.
    cbn [extend]. rewrite A. change (CR =? ESCAPE) with false. cbn [extend]. rewrite B.
    change (LF =? ESCAPE) with false. reflexivity.
  - cbn [sane] in Sa. apply andb_true_iff in Sa. destruct Sa as [A B]. apply negb_true_iff in B.
    rewrite N.eqb_sym in B. cbn [extend]. rewrite B. change (LF =? ESCAPE) with false. reflexivity.
  - cbn [sane] in Sa. rewrite !andb_true_iff, !negb_true_iff in Sa. destruct Sa as [_ [A B]].
    rewrite N.eqb_sym in A. rewrite N.eqb_sym in B.
    cbn [extend]. rewrite A. cbn [extend]. rewrite B. reflexivity.
  - cbn [sane] in Sa. rewrite !andb_true_iff, !negb_true_iff in Sa. destruct Sa as [[C D] [A B]].
    rewrite N.eqb_sym in A. rewrite N.eqb_sym in B. rewrite N.eqb_sym in C. rewrite N.eqb_sym in D.
    cbn [extend]. rewrite A, B, C, D. change (CR =? DASH) with false. change (LF =? DASH) with false.
    cbn [andb extend]. rewrite B. reflexivity.
  - cbn [extend]. rewrite !Op by (cbn; auto). reflexivity.
Qed.
Lemma see_crlf p a1 p1 a2 p2 : sane_place p -> marked p ->
  see p CR = Some (a1, p1) -> see p1 LF = Some (a2, p2) ->
  exists a', see (norm_place p) LF = Some (a', norm_place p2) /\ Forall2 like_lexeme (a1 ++ a2) a' /\
    place_ends_cr p2 = false.
Proof.
  intros Sa Ma H1 H2. destruct p as [|l t]; cbn [see norm_place] in *.
  - injection H1 as <- <-. injection H2 as <- <-. exists []. repeat split. constructor.
  - pose proof (extend_crlf l Sa) as X. destruct (extend l CR) as [l1|] eqn:E1.
    + injection H1 as <- <-. cbn [see] in H2. destruct (extend l1 LF) as [l2|] eqn:E2.
      * injection H2 as <- <-. rewrite X. exists []. cbn [norm_place place_ends_cr].
        rewrite <- app_assoc. cbn [app]. rewrite drop_cr_crlf_end. repeat split; [constructor|].
        change [CR; LF] with ([CR] ++ [LF]). rewrite app_assoc, ends_cr_snoc. reflexivity.
      * destruct (complete_lexeme l1) eqn:C1; [|discriminate]. destruct (X eq_refl) as [-> ->].
        injection H2 as <- <-. cbn. exists [drop_cr t]. repeat split.
        constructor; [|constructor]. destruct Ma as [N M]. cbn [in_comment] in M.
        unfold like_lexeme. assert (K : is_comment (t ++ [CR]) = true)
          by (destruct t; [contradiction|symmetry; exact M]).
        rewrite K. apply is_comment_dropped. symmetry. exact M.
    + destruct (complete_lexeme l) eqn:C; [|discriminate]. cbn in H1. injection H1 as <- <-.
      cbn in H2. injection H2 as <- <-. rewrite (X eq_refl). cbn. exists [drop_cr t]. repeat split.
      constructor; [apply like_drop|constructor].
Qed.
Lemma see_all_norm : forall n s p a p', (List.length s <= n)%nat ->
  (place_ends_cr p = true -> match s with c :: _ => c <> LF | [] => True end) ->
  sane_place p -> marked p ->
  see_all p s = Some (a, p') ->
  exists a', see_all (norm_place p) (drop_cr s) = Some (a', norm_place p') /\
    Forall2 like_lexeme a a'.
Proof.
  induction n as [|n IH]; intros s p a p' Len Cr Sa Ma H.
  - destruct s; [|cbn in Len; lia]. cbn in H. injection H as <- <-. exists []. split; [reflexivity|constructor].
  - destruct s as [|c s].
    { cbn in H. injection H as <- <-. exists []. split; [reflexivity|constructor]. }
    cbn [see_all] in H. destruct (see p c) as [[x p1]|] eqn:S; [|discriminate].
    destruct (see_all p1 s) as [[y p2]|] eqn:R; [|discriminate]. injection H as <- <-.
    rewrite drop_cr_cons. destruct (crlf_head c s) eqn:E.
    + apply crlf_head_true in E. destruct E as [r [-> ->]]. rewrite drop_cr_LF.
      cbn [see_all] in R. destruct (see p1 LF) as [[z q]|] eqn:S2; [|discriminate].
      destruct (see_all q r) as [[w q']|] eqn:R2; [|discriminate]. injection R as <- <-.
      destruct (see_crlf _ _ _ _ _ Sa Ma S S2) as [a' [E1 [E2 E3]]].
      destruct (IH r q w q') as [b' [F1 F2]].
      * cbn [List.length] in Len. lia.
      * rewrite E3. discriminate.
      * exact (see_sane _ _ _ _ (see_sane _ _ _ _ Sa S) S2).
      * exact (see_marked _ _ _ _ (see_marked _ _ _ _ Ma S) S2).
      * exact R2.
      * exists (a' ++ b'). cbn [see_all]. rewrite E1, F1. split; [reflexivity|].
        rewrite app_assoc. apply Forall2_app; assumption.
    + destruct (see_norm p c x p1 Cr S) as [a' [E1 [E2 E3]]].
      destruct (IH s p1 y p2) as [b' [F1 F2]].
      * cbn [List.length] in Len. lia.
      * intros K. specialize (E3 K). subst c. destruct s as [|d s]; [exact I|].
        intros ->. discriminate E.
      * exact (see_sane _ _ _ _ Sa S).
      * exact (see_marked _ _ _ _ Ma S).
      * exact R.
      * exists (a' ++ b'). cbn [see_all]. rewrite E1, F1. split; [reflexivity|apply Forall2_app; assumption].
Qed.
Lemma see_norm_all s a p : see_all Between s = Some (a, p) ->
  exists a', see_all Between (drop_cr s) = Some (a', norm_place p) /\ Forall2 like_lexeme a a'.
Proof. intros H. refine (see_all_norm _ s Between a p (le_n _) _ I I H). discriminate. Qed.
Lemma whole_norm s l : whole s l -> whole (drop_cr s) l.
Proof.
  intros [S C]. destruct (see_norm_all _ _ _ S) as [a' [E F]]. inversion F; subst. split; assumption.
Qed.
