(** Proofs for LexProps.v: a source that R reads as its tree's tokens gives a
    tree whose tokens are lexemes. *)
From Coq Require Import List NArith Bool Arith Lia String Permutation.
From Verif Require Import Text TextFacts SettingsModel IrModel TableModel FmtModel FmtLayout FmtFactProofs SyntaxKind ParseModel ParseSpec ParseProofs ParseTree FmtTree
  FmtSpec FmtListProofs CommentsModel CommentsSpec AstModel AstReads AstProofs FactorySpec FactoryTyped FactoryProofs
  FrontProofs LexSpec LexProofs LexRunProofs LexSealProofs LexTreeProofs LexAlignProofs LexSourceSpec.
Import ListNotations.

(** * From parts to units *)

Definition plain_kind (k : kind) : bool :=
  match k with
  | STRING_OPEN | STRING_CONTENT | R_BRACK2 | UNICODE_BOM => false
  | _ => true
  end.
Definition unit1 (x : parts) : unit :=
  {| u_lead := p_leading x; u_lex := [p_own x]; u_trail := p_trailing x |}.
Inductive splits : list parts -> list unit -> Prop :=
| S_nil : splits [] []
| S_one x r us : plain_kind (p_kind x) = true -> plain_text (p_own x) -> splits r us ->
    splits (x :: r) (unit1 x :: us)
| S_brack2 x r us : p_kind x = R_BRACK2 -> p_own x = $"]]" -> splits r us ->
    splits (x :: r)
      ({| u_lead := p_leading x; u_lex := [$"]"; $"]"]; u_trail := p_trailing x |} :: us)
| S_str2 a z r us : p_kind a = STRING_OPEN -> p_kind z = STRING_CLOSE ->
    p_trailing a = [] -> p_leading z = [] -> plain_text (p_own a) -> splits r us ->
    splits (a :: z :: r)
      ({| u_lead := p_leading a; u_lex := [p_own a ++ p_own z]; u_trail := p_trailing z |} :: us)
| S_str3 a b z r us : p_kind a = STRING_OPEN -> p_kind b = STRING_CONTENT ->
    p_kind z = STRING_CLOSE ->
    p_trailing a = [] -> p_leading b = [] -> p_trailing b = [] -> p_leading z = [] ->
    plain_text (p_own a) -> splits r us ->
    splits (a :: b :: z :: r)
      ({| u_lead := p_leading a; u_lex := [p_own a ++ p_own b ++ p_own z];
          u_trail := p_trailing z |} :: us).

Lemma splits_app xs us ys vs : splits xs us -> splits ys vs -> splits (xs ++ ys) (us ++ vs).
Proof. intros H K. induction H; cbn [app]; try constructor; assumption. Qed.
Lemma splits_same xs us : splits xs us -> forall vs, splits xs vs -> us = vs.
Proof.
  intros H. induction H as [|x r us K P H IH|x r us K P H IH|a z r us K1 K2 T L P H IH|a b z r us K1 K2 K3 T1 L1 T2 L2 P H IH];
    intros vs V; inversion V; subst; try reflexivity;
    try (match goal with A : p_kind ?x = _, B : p_kind ?x = _ |- _ => rewrite A in B; discriminate end);
    try (match goal with A : p_kind ?x = _, B : plain_kind (p_kind ?x) = true |- _ => rewrite A in B; discriminate end);
    f_equal; apply IH; assumption.
Qed.
Lemma splits_nil us : splits [] us -> us = [].
Proof. intros H. inversion H. reflexivity. Qed.
Lemma splits_some xs us : splits xs us -> xs <> [] -> us <> [].
Proof. intros H N. inversion H; subst; [contradiction|..]; discriminate. Qed.

Lemma plain_app a b : plain_text a -> plain_text (a ++ b).
Proof. destruct a; [contradiction|]. auto. Qed.
Lemma splits_ok xs us : splits xs us -> Forall unit_ok us.
Proof.
  intros H. induction H; constructor; try assumption; split; try discriminate; cbn [u_lex unit1];
    repeat constructor; try assumption; apply plain_app; assumption.
Qed.
Lemma splits_lex xs us : splits xs us -> all_lex us = lexemes (map token_of xs).
Proof.
  unfold all_lex. intros H. induction H as [|x r us K P H IH|x r us K P H IH|a z r us K1 K2 T L P H IH|a b z r us K1 K2 K3 T1 L1 T2 L2 P H IH];
    cbn [map flat_map u_lex unit1 app]; [reflexivity| | | |]; rewrite IH.
  - symmetry. destruct (kind_eqb (p_kind x) STRING_CLOSE) eqn:Kx.
    { apply kind_eqb_eq in Kx. exact (close_lexemes (token_of x) _ Kx). }
    apply plain_lexemes. unfold plain_token. change (t_kind (token_of x)) with (p_kind x).
    destruct (p_kind x); try exact I; discriminate.
  - assert (E : forall t l, t_kind t = R_BRACK2 -> lexemes (t :: l) = map (fun c => [c]) (t_text t) ++ lexemes l).
    { intros t l E. cbn [lexemes]. rewrite E. reflexivity. }
    rewrite (E (token_of x) _ K). change (t_text (token_of x)) with (p_own x). rewrite P. reflexivity.
  - symmetry. exact (string2_lexemes (token_of a) (token_of z) _ K1 K2).
  - symmetry. exact (string3_lexemes (token_of a) (token_of b) (token_of z) _ K1 K2 K3).
Qed.
Lemma splits_text xs us : splits xs us -> all_text us = flat_map parts_text xs.
Proof.
  unfold all_text. intros H. induction H; [reflexivity|..]; cbn [flat_map]; rewrite IHsplits;
    unfold unit_whole, parts_text, unit_text; cbn [u_lead u_lex u_trail unit1 List.concat];
    rewrite ?app_nil_r.
  - reflexivity.
  - rewrite H0. reflexivity.
  - rewrite H1, H2. cbn [pieces_text flat_map app]. rewrite ?app_nil_r, <- !app_assoc. reflexivity.
  - rewrite H2, H3, H4, H5. cbn [pieces_text flat_map app]. rewrite ?app_nil_r, <- !app_assoc. reflexivity.
Qed.
Fixpoint parts_trivia (ps : list parts) (rest : text) : Prop :=
  match ps with
  | [] => True
  | x :: r =>
    trivia_ok (p_leading x) (p_own x ++ pieces_text (p_trailing x) ++ flat_map parts_text r ++ rest) /\
    trivia_ok (p_trailing x) (flat_map parts_text r ++ rest) /\ parts_trivia r rest
  end.
Lemma parts_trivia_app a : forall b rest, parts_trivia (a ++ b) rest ->
  parts_trivia a (flat_map parts_text b ++ rest).
Proof.
  induction a as [|x a IH]; intros b rest; [intros; exact I|]. cbn [app parts_trivia].
  rewrite !flat_map_app, <- !app_assoc. intros [A [B C]]. auto.
Qed.
Lemma splits_trivia xs us : splits xs us -> forall rest, parts_trivia xs rest -> units_trivia us rest.
Proof.
  intros H. induction H; intros rest T; [exact I|..]; cbn [parts_trivia] in T; cbn [units_trivia];
    rewrite (splits_text _ _ ltac:(eassumption)); unfold unit_text;
    cbn [u_lead u_lex u_trail unit1 List.concat]; rewrite ?app_nil_r.
  - destruct T as [A [B C]]. auto.
  - destruct T as [A [B C]]. rewrite H0 in A. auto.
  - destruct T as [A [_ [_ [B C]]]]. rewrite H1 in A. cbn [flat_map] in A. unfold parts_text at 1 in A.
    rewrite H2 in A. cbn [pieces_text flat_map app] in A. rewrite <- !app_assoc in *. auto.
  - destruct T as [A [_ [_ [_ [_ [B C]]]]]]. rewrite H2 in A. cbn [flat_map] in A. unfold parts_text at 1 2 in A.
    rewrite H3, H4, H5 in A. cbn [pieces_text flat_map app] in A. rewrite <- !app_assoc in *. auto.
Qed.

(** [trimmed]. *)
Lemma trimmed_end_cons x y r : trimmed_end (x :: y :: r) = with_trivia x ++ trimmed_end (y :: r).
Proof. reflexivity. Qed.
Lemma trimmed_trimmed_end x r : trimmed_end (x :: r) = pieces_text (p_leading x) ++ trimmed (x :: r).
Proof. destruct r; [reflexivity|]. cbn [trimmed]. rewrite trimmed_end_cons. unfold with_trivia. rewrite <- !app_assoc. reflexivity. Qed.
Lemma trimmed_cons x y r : trimmed (x :: y :: r) =
  p_own x ++ pieces_text (p_trailing x) ++ pieces_text (p_leading y) ++ trimmed (y :: r).
Proof. rewrite <- trimmed_trimmed_end. reflexivity. Qed.
Lemma splits_lead xs us : splits xs us -> match xs, us with
  | x :: _, u :: _ => u_lead u = p_leading x
  | [], [] => True
  | _, _ => False
  end.
Proof. intros H. destruct H; cbn; auto. Qed.
Lemma trimmed_inner xs us : splits xs us -> trimmed xs = inner_text us.
Proof.
  assert (G : forall x r us, splits r us -> trimmed r = inner_text us ->
    trimmed (x :: r) = p_own x ++ match us with
      | [] => []
      | v :: _ => pieces_text (p_trailing x) ++ pieces_text (u_lead v) ++ inner_text us
      end).
  { clear. intros x r us H E. pose proof (splits_lead r us H) as L.
    destruct r as [|y r], us as [|v us]; try contradiction.
    - symmetry. apply app_nil_r.
    - rewrite trimmed_cons, E, L. reflexivity. }
  intros H. induction H; [reflexivity|..]; cbn [inner_text]; unfold unit_text;
    cbn [u_lex u_trail unit1 List.concat]; rewrite ?app_nil_r.
  - exact (G x r us H1 IHsplits).
  - rewrite (G x r us H1 IHsplits), H0. reflexivity.
  - rewrite trimmed_cons, H1, H2, (G z r us H4 IHsplits). cbn [pieces_text flat_map app].
    rewrite <- !app_assoc. reflexivity.
  - rewrite !trimmed_cons, H2, H3, H4, H5, (G z r us H7 IHsplits). cbn [pieces_text flat_map app].
    rewrite <- !app_assoc. reflexivity.
Qed.

(** * Stretches of the source *)

Lemma units_trivia_tail a : forall b rest, units_trivia (a ++ b) rest -> units_trivia b rest.
Proof. induction a as [|u a IH]; intros b rest T; [exact T|]. destruct T as [_ [_ T]]. auto. Qed.
Lemma units_trivia_head a : forall b rest, units_trivia (a ++ b) rest ->
  units_trivia a (all_text b ++ rest).
Proof.
  induction a as [|u a IH]; intros b rest T; [exact I|]. cbn [app units_trivia] in *.
  unfold all_text in *. rewrite !flat_map_app, <- !app_assoc in *. destruct T as [A [B C]]. auto.
Qed.
Lemma all_text_app a b : all_text (a ++ b) = all_text a ++ all_text b.
Proof. apply flat_map_app. Qed.
Lemma all_lex_app a b : all_lex (a ++ b) = all_lex a ++ all_lex b.
Proof. apply flat_map_app. Qed.

Section Stretches.
Variables (U : list unit) (rest : text).
Hypothesis Uok : Forall unit_ok U.
Hypothesis Utr : units_trivia U rest.
Hypothesis Ual : aligned Between (all_text U ++ rest) (all_lex U ++ []).

Lemma infix_reads a us b : U = a ++ us ++ b -> us <> [] ->
  first_and_last (inner_text us) (all_lex us).
Proof.
  intros E N. rewrite E in Uok, Utr, Ual. apply Forall_app in Uok as [Oa Ob].
  apply Forall_app in Ob as [Ou Ob]. pose proof (units_trivia_head _ _ _ Utr) as Ta.
  apply units_trivia_tail in Utr as Tb. apply units_trivia_head in Tb.
  rewrite all_text_app, all_lex_app, <- !app_assoc in Ual.
  destruct (step_units a Between _ _ Oa Ta Ual) as [p [_ A]].
  rewrite all_text_app, all_lex_app, <- !app_assoc in A.
  pose proof (all_inner us) as I. pose proof (units_inner us _ Tb) as Ti.
  destruct us as [|u us]; [contradiction|]. rewrite I, <- !app_assoc in A.
  assert (Tl : trivia_ok (u_lead u) (inner_text (u :: us) ++ pieces_text (last_trail (u :: us)) ++ all_text b ++ rest)).
  { destruct Tb as [Tb _].
    change (all_text (u :: us)) with (unit_whole u ++ all_text us) in I. unfold unit_whole in I.
    rewrite <- !app_assoc in I. apply app_inv_head in I.
    pose proof (f_equal (fun x => x ++ all_text b ++ rest) I) as I'. cbv beta in I'.
    rewrite <- !app_assoc in I'. rewrite <- I'. exact Tb. }
  destruct (step_trivia _ p _ _ Tl A) as [q [_ Aq]].
  exact (stretch (u :: us) _ _ q Ou N Ti Aq).
Qed.
(** A unit of one lexeme. *)
Lemma infix_one a u b x : U = a ++ u :: b -> u_lex u = [x] -> one_lexeme x.
Proof.
  intros E X. destruct (infix_reads a [u] b E ltac:(discriminate)) as [L [A [B _]]].
  cbn [inner_text] in A. unfold unit_text in A. rewrite X in A. cbn [List.concat] in A.
  rewrite !app_nil_r in A.
  assert (P : plain_text x).
  { rewrite E in Uok. apply Forall_app in Uok as [_ O]. inversion O as [|? ? [Of _] _]; subst.
    rewrite X in Of. inversion Of. assumption. }
  rewrite E in Uok, Utr, Ual. change (u :: b) with ([u] ++ b) in *.
  apply Forall_app in Uok as [Oa Ob].
  apply Forall_app in Ob as [Ou Ob]. pose proof (units_trivia_head _ _ _ Utr) as Ta.
  apply units_trivia_tail in Utr as Tb. apply units_trivia_head in Tb.
  rewrite all_text_app, all_lex_app, <- !app_assoc in Ual.
  destruct (step_units a Between _ _ Oa Ta Ual) as [p [_ Ap]].
  rewrite all_text_app, all_lex_app, <- !app_assoc in Ap.
  unfold all_text at 1, all_lex at 1 in Ap. cbn [flat_map] in Ap. unfold unit_whole in Ap.
  rewrite !app_nil_r, <- !app_assoc in Ap. destruct Tb as [Tb _].
  cbn [all_text flat_map] in Tb. destruct (step_trivia _ p _ _ Tb Ap) as [q [_ Aq]].
  rewrite X in Aq. exact (stretch_one x u _ _ q X P Aq).
Qed.

Definition cutat (xs : list parts) : Prop :=
  exists a us b, splits xs us /\ U = a ++ us ++ b.
Lemma cutat_infix xs ys zs ux uy uz : splits xs ux -> splits ys uy -> splits zs uz ->
  cutat (xs ++ ys ++ zs) -> cutat ys.
Proof.
  intros X Y Z [a [us [b [H E]]]].
  pose proof (splits_same _ _ H _ (splits_app _ _ _ _ X (splits_app _ _ _ _ Y Z))) as ->.
  exists (a ++ ux), uy, (uz ++ b). split; [exact Y|]. rewrite E, <- !app_assoc. reflexivity.
Qed.
Lemma cutat_reads xs : cutat xs -> reads_as (trimmed xs) (map token_of xs).
Proof.
  intros [a [us [b [H E]]]]. rewrite (trimmed_inner xs us H).
  destruct us as [|u us].
  - assert (xs = []) as -> by (inversion H; reflexivity). exists []. repeat split.
  - destruct (infix_reads a (u :: us) b E ltac:(discriminate)) as [L [A [B [C D]]]].
    exists L. rewrite <- (splits_lex xs _ H). auto.
Qed.
Lemma cutat_one x : plain_kind (p_kind x) = true -> cutat [x] -> one_lexeme (p_own x).
Proof.
  intros K [a [us [b [H E]]]]; revert E. inversion H as [|? ? ? ? ? H'|? ? ? K'|? ? ? ? K'|? ? ? ? ? K']; subst; intros E.
  - apply splits_nil in H'. rewrite H' in E. exact (infix_one a (unit1 x) b _ E eq_refl).
  - rewrite K' in K. discriminate.
Qed.
Lemma cutat_str2 x z : p_kind x = STRING_OPEN -> cutat [x; z] -> one_lexeme (p_own x ++ p_own z).
Proof.
  intros K [a [us [b [H E]]]]; revert E.
  inversion H as [|? ? ? K1 ? H'|? ? ? K'|? ? ? ? ? ? ? ? ? H'|]; subst; intros E.
  - rewrite K in K1. discriminate.
  - rewrite K in K'. discriminate.
  - apply splits_nil in H'. rewrite H' in E. exact (infix_one a _ b _ E eq_refl).
Qed.
Lemma cutat_str3 x y z : p_kind x = STRING_OPEN -> p_kind y = STRING_CONTENT ->
  cutat [x; y; z] -> one_lexeme (p_own x ++ p_own y ++ p_own z).
Proof.
  intros K Ky [a [us [b [H E]]]]; revert E.
  inversion H as [|? ? ? K1 ? H'|? ? ? K'|? ? ? ? ? K' ? ? ? H'|? ? ? ? ? ? ? ? ? ? ? ? ? H']; subst; intros E.
  - rewrite K in K1. discriminate.
  - rewrite K in K'. discriminate.
  - rewrite Ky in K'. discriminate.
  - apply splits_nil in H'. rewrite H' in E. exact (infix_one a _ b _ E eq_refl).
Qed.
End Stretches.

(** * Trees *)

Definition rule_kinds (r : rule) : list kind :=
  match r with
  | Fields ps => flat_map (fun p => match p with Must l | May l => l end) ps
  | Many l => l
  | Parted l by_ => by_ :: l
  end.
Lemma fill_in ps : forall ks, fill ps ks = true -> forall k, In k ks -> In k (rule_kinds (Fields ps)).
Proof.
  cbn [rule_kinds]. induction ps as [|[l|l] ps IH]; intros ks F k I.
  - destruct ks; [contradiction|discriminate].
  - destruct ks as [|k0 ks]; [contradiction|]. rewrite fill_must in F. apply andb_prop in F as [A B].
    cbn [flat_map]. apply in_or_app. destruct I as [->|I]; [left; apply one_of_true, A|right; exact (IH ks B k I)].
  - destruct ks as [|k0 ks]; [contradiction|]. rewrite fill_may in F. cbn [flat_map]. apply in_or_app.
    destruct (one_of l k0) eqn:A; [|right; exact (IH _ F k I)].
    destruct I as [->|I]; [left; apply one_of_true, A|right; exact (IH ks F k I)].
Qed.
Lemma parted_in l by_ ks : FactorySpec.parted l by_ ks = true -> forall k, In k ks -> In k (by_ :: l).
Proof.
  assert (H : forall (n : nat) ks, (List.length ks <= n)%nat -> FactorySpec.parted l by_ ks = true -> forall k, In k ks -> In k (by_ :: l)).
  { intros n. induction n as [|n IH]; intros [|k0 ks0] L P k I; try contradiction; [cbn in L; lia|].
    cbn [FactorySpec.parted] in P. apply andb_prop in P as [A B]. destruct I as [->|I]; [right; apply one_of_true, A|].
    destruct ks0 as [|s r]; [contradiction|]. apply andb_prop in B as [B C]. apply kind_eqb_eq in B. subst s.
    destruct I as [->|I]; [left; reflexivity|]. apply (IH r); [cbn in L; lia|exact C|exact I]. }
  intros P. exact (H _ ks (le_n _) P).
Qed.
Lemma obeys_in r ks : obeys r ks = true -> forall k, In k ks -> In k (rule_kinds r).
Proof.
  destruct r as [ps|l|l by_]; cbn [obeys].
  - apply fill_in.
  - intros F k I. rewrite forallb_forall in F. apply one_of_true, F, I.
  - destruct ks; [contradiction|]. apply parted_in.
Qed.

(** Tokens that stand for themselves. *)
Definition wordy (k : kind) : bool :=
  match k with
  | IDENT | R_INTEGER_LITERAL | R_DOUBLE_LITERAL | R_COMPLEX_LITERAL | NEXT_KW | BREAK_KW | TRUE_KW
  | FALSE_KW | NULL_KW | INF_KW | NAN_KW | NA_LOGICAL_KW | NA_INTEGER_KW | NA_DOUBLE_KW
  | NA_COMPLEX_KW | NA_CHARACTER_KW | DOTS | DOTDOTI | SPECIAL => true
  | k => match operator_text k, spelling k with None, None => false | _, _ => true end
  end.
Definition simple (k : kind) : bool :=
  match k with
  | R_ROOT => false
  | _ => match ungram k with Some _ => true | None => wordy k end
  end.
Lemma rule_simple k r : ungram k = Some r -> k <> R_STRING_VALUE -> k <> R_ROOT ->
  forallb simple (rule_kinds r) = true.
Proof.
  intros U N1 N2. destruct k; try discriminate U; try contradiction; injection U as <-; reflexivity.
Qed.
Definition good_word (x : parts) : Prop := worded (token_of x) /\ well_spelled x.
Lemma atom_plain x : starts_with atom_char x -> plain_text x.
Proof.
  destruct x as [|c x]; [auto|]. unfold plain_text. cbn [starts_with]. unfold plain_start, atom_char. intros H.
  destruct (blank c) eqn:B.
  - exfalso. rewrite (blank_not_name c B) in H. unfold quote, QUOTE, TICK, BACKTICK in H.
    rewrite !orb_true_iff in H. pose proof (blank_cases c B) as K. rewrite !N.eqb_eq in H.
    destruct H as [[H|[H|H]]|H]; try discriminate; subst c; lia.
  - destruct (N.eqb_spec c HASH); [subst; discriminate|reflexivity].
Qed.
Lemma wordy_plain x : wordy (p_kind x) = true -> good_word x -> p_kind x <> R_BRACK2 ->
  plain_kind (p_kind x) = true /\ plain_text (p_own x).
Proof.
  unfold good_word, worded, well_spelled, token_of, tk. cbn [t_kind t_text].
  destruct (p_kind x); intros Wd [A B] N; try discriminate Wd; try contradiction; split; try reflexivity;
    first [apply atom_plain, A | cbn in A, B; rewrite ?A, ?B; reflexivity | idtac].
  destruct (p_own x) as [|c y]; [exact A|]. cbn [starts_with] in A. apply N.eqb_eq in A. subst c. reflexivity.
Qed.

Definition tight (xs : list parts) : Prop :=
  forall a x y b, xs = a ++ x :: y :: b -> string_goes_on (p_kind x) = true ->
    p_trailing x = [] /\ p_leading y = [].
Lemma tight_infix a b c : tight (a ++ b ++ c) -> tight b.
Proof.
  intros T u x y v E. apply (T (a ++ u) x y (v ++ c)). rewrite E, <- !app_assoc. reflexivity.
Qed.
Lemma string_children cs : complete (skel_syn (Node R_STRING_VALUE cs)) = true ->
  (exists a z, cs = [Tok a; Tok z] /\ p_kind a = STRING_OPEN /\ p_kind z = STRING_CLOSE) \/
  (exists a b z, cs = [Tok a; Tok b; Tok z] /\ p_kind a = STRING_OPEN /\
     p_kind b = STRING_CONTENT /\ p_kind z = STRING_CLOSE).
Proof.
  intros C. cbn [skel_syn complete ungram] in C. rewrite map_skel_kind, forallb_skel in C.
  apply andb_prop in C as [O C]. cbn [obeys] in O.
  destruct cs as [|a cs]; [discriminate|]. rewrite map_cons, fill_must in O. apply andb_prop in O as [Oa O].
  cbn [forallb] in C. apply andb_prop in C as [Ca C].
  destruct (child_tok [STRING_OPEN] a eq_refl Oa Ca) as [x [-> [Kx|[]]]].
  destruct cs as [|b cs]; [discriminate|]. rewrite map_cons, fill_may in O.
  cbn [forallb] in C. apply andb_prop in C as [Cb C].
  destruct (one_of [STRING_CONTENT] (syn_kind b)) eqn:Ob.
  - destruct (child_tok [STRING_CONTENT] b eq_refl Ob Cb) as [y [-> [Ky|[]]]].
    destruct cs as [|c cs]; [discriminate|]. rewrite map_cons, fill_must in O. apply andb_prop in O as [Oc O].
    cbn [forallb] in C. apply andb_prop in C as [Cc C].
    destruct (child_tok [STRING_CLOSE] c eq_refl Oc Cc) as [z [-> [Kz|[]]]].
    destruct cs; [|discriminate O]. right. exists x, y, z. auto.
  - rewrite fill_must in O. apply andb_prop in O as [Oc O].
    destruct (child_tok [STRING_CLOSE] b eq_refl Oc Cb) as [z [-> [Kz|[]]]].
    destruct cs; [|discriminate O]. left. exists x, z. auto.
Qed.
Lemma open_plain x : p_kind x = STRING_OPEN -> good_word x -> plain_text (p_own x).
Proof.
  intros K [A _]. unfold worded in A. change (t_kind (token_of x)) with (p_kind x) in A. rewrite K in A.
  apply atom_plain, A.
Qed.
Lemma node_simple k cs : complete (skel_syn (Node k cs)) = true -> k <> R_STRING_VALUE -> k <> R_ROOT ->
  Forall (fun c => simple (syn_kind c) = true /\ complete (skel_syn c) = true) cs.
Proof.
  intros C N1 N2. cbn [skel_syn complete] in C. rewrite map_skel_kind, forallb_skel in C.
  destruct (ungram k) as [r|] eqn:E; [|discriminate]. apply andb_prop in C as [O C].
  pose proof (rule_simple k r E N1 N2) as S. rewrite forallb_forall in S, C.
  apply Forall_forall. intros c I. split; [|apply C, I].
  apply S, (obeys_in r _ O). apply in_map, I.
Qed.
Lemma tree_splits t : simple (syn_kind t) = true -> complete (skel_syn t) = true ->
  Forall good_word (syn_tokens t) -> tight (syn_tokens t) -> exists us, splits (syn_tokens t) us.
Proof.
  induction t as [k cs IH|x] using syn_ind'; intros S C G T.
  - destruct (kind_eqb k R_STRING_VALUE) eqn:E.
    + apply kind_eqb_eq in E. subst k.
      destruct (string_children cs C) as [[a [z [-> [Ka Kz]]]]|[a [b [z [-> [Ka [Kb Kz]]]]]]];
        cbn [syn_tokens flat_map app] in *; inversion G as [|? ? Ga _]; subst.
      * destruct (T [] a z [] eq_refl ltac:(rewrite Ka; reflexivity)) as [A Z].
        eexists. apply S_str2; auto using open_plain. constructor.
      * destruct (T [] a b [z] eq_refl ltac:(rewrite Ka; reflexivity)) as [A B].
        destruct (T [a] b z [] eq_refl ltac:(rewrite Kb; reflexivity)) as [B' Z].
        eexists. apply S_str3; auto using open_plain. constructor.
    + assert (N1 : k <> R_STRING_VALUE) by (intros ->; rewrite kind_eqb_refl in E; discriminate).
      assert (N2 : k <> R_ROOT) by (intros ->; discriminate S).
      pose proof (node_simple k cs C N1 N2) as F. cbn [syn_tokens] in *. clear S C E N1 N2.
      induction F as [|c cs [Sc Cc] F IHl]; [exists []; constructor|].
      inversion IH as [|? ? Hc Hr]; subst. cbn [flat_map] in *. apply Forall_app in G as [Gc Gr].
      destruct (Hc Sc Cc Gc) as [uc Uc].
      { apply (tight_infix [] _ (flat_map syn_tokens cs)). exact T. }
      destruct (IHl Hr Gr) as [ur Ur].
      { apply (tight_infix (syn_tokens c) _ []). rewrite app_nil_r. exact T. }
      exists (uc ++ ur). apply splits_app; assumption.
  - cbn [syn_tokens] in *. inversion G as [|? ? Gx _]; subst. unfold syn_kind in S. cbn in S, C.
    destruct (kind_eqb (p_kind x) R_BRACK2) eqn:E.
    + apply kind_eqb_eq in E. eexists. apply S_brack2; [exact E| |constructor].
      destruct Gx as [_ B]. unfold well_spelled in B. rewrite E in B. exact B.
    + assert (N : p_kind x <> R_BRACK2) by (intros K; rewrite K in E; discriminate).
      assert (Wd : wordy (p_kind x) = true).
      { unfold simple in S. destruct (p_kind x); try discriminate; try exact S. }
      destruct (wordy_plain x Wd Gx N) as [A B]. eexists. apply S_one; [exact A|exact B|constructor].
Qed.

(** * The tokens of the typed tree *)

Section Fit.
Variables (U : list unit) (rest : text).
Hypothesis Uok : Forall unit_ok U.
Hypothesis Utr : units_trivia U rest.
Hypothesis Ual : aligned Between (all_text U ++ rest) (all_lex U ++ []).
Variable pl : list placement.

Definition fit (t : syn) : Prop :=
  simple (syn_kind t) = true /\ complete (skel_syn t) = true /\ Forall good_word (syn_tokens t) /\
  tight (syn_tokens t) /\ cutat U (syn_tokens t).
Lemma list_splits cs : Forall (fun c => simple (syn_kind c) = true /\ complete (skel_syn c) = true) cs ->
  Forall good_word (flat_map syn_tokens cs) -> tight (flat_map syn_tokens cs) ->
  exists us, splits (flat_map syn_tokens cs) us.
Proof.
  induction cs as [|c cs IH]; intros F G T; [exists []; constructor|].
  inversion F as [|? ? [Sc Cc] Fr]; subst. cbn [flat_map] in *. apply Forall_app in G as [Gc Gr].
  destruct (tree_splits c Sc Cc Gc) as [uc Uc].
  { apply (tight_infix [] _ (flat_map syn_tokens cs)). exact T. }
  destruct (IH Fr Gr) as [ur Ur].
  { apply (tight_infix (syn_tokens c) _ []). rewrite app_nil_r. exact T. }
  exists (uc ++ ur). apply splits_app; assumption.
Qed.
Lemma fit_list cs : Forall (fun c => simple (syn_kind c) = true /\ complete (skel_syn c) = true) cs ->
  Forall good_word (flat_map syn_tokens cs) -> tight (flat_map syn_tokens cs) ->
  forall xs ux, splits xs ux -> cutat U (xs ++ flat_map syn_tokens cs) -> Forall fit cs.
Proof.
  induction cs as [|c cs IH]; intros F G T xs ux X C; [constructor|].
  inversion F as [|? ? [Sc Cc] Fr]; subst. cbn [flat_map] in *. apply Forall_app in G as [Gc Gr].
  assert (Tc : tight (syn_tokens c)) by (apply (tight_infix [] _ (flat_map syn_tokens cs)); exact T).
  assert (Tr : tight (flat_map syn_tokens cs))
    by (apply (tight_infix (syn_tokens c) _ []); rewrite app_nil_r; exact T).
  destruct (tree_splits c Sc Cc Gc Tc) as [uc Uc]. destruct (list_splits cs Fr Gr Tr) as [ur Ur].
  constructor.
  - split; [exact Sc|]. split; [exact Cc|]. split; [exact Gc|]. split; [exact Tc|].
    exact (cutat_infix U _ _ _ _ _ _ X Uc Ur C).
  - apply (IH Fr Gr Tr (xs ++ syn_tokens c) (ux ++ uc)); [apply splits_app; assumption|].
    rewrite <- app_assoc. exact C.
Qed.
Lemma fit_children k cs : fit (Node k cs) -> k <> R_STRING_VALUE -> Forall fit cs.
Proof.
  intros [S [C [G [T K]]]] N. assert (N2 : k <> R_ROOT) by (intros ->; discriminate S).
  exact (fit_list cs (node_simple k cs C N N2) G T [] [] S_nil K).
Qed.

Definition tokens_fit (e : expr) : Prop :=
  tokens_lexical e /\ reads_as (n_src (notes_of e)) (etokens e).
Lemma separator_fit c e : everywhere tokens_fit e -> everywhere tokens_fit (with_separator c e).
Proof. destruct e; auto. Qed.
Lemma fit_reads p g t e : reads pl p g t e -> fit t -> n_src (notes_of e) = trimmed (syn_tokens t) ->
  reads_as (n_src (notes_of e)) (etokens e).
Proof.
  intros R [_ [_ [_ [_ K]]]] ->. rewrite <- (reads_tokens _ _ _ _ _ R).
  exact (cutat_reads U rest Uok Utr Ual _ K).
Qed.
Lemma node_kinds k cs r : fit (Node k cs) -> ungram k = Some r -> obeys r (map syn_kind cs) = true.
Proof.
  intros [_ [C _]] E. cbn [skel_syn complete] in C. rewrite E, map_skel_kind in C.
  apply andb_prop in C as [O _]. exact O.
Qed.
Lemma worded_operator x s : operator_text (t_kind x) = Some s -> worded x -> t_text x = s.
Proof.
  unfold worded. destruct (t_kind x); intros E A; try discriminate E; cbn in E, A; congruence.
Qed.
Lemma fit_operator ks x : fit (Tok x) -> In (p_kind x) ks ->
  forallb (fun k => match operator_text k with Some _ => true | None => false end) ks = true ->
  operator ks (token_of x).
Proof.
  intros [_ [_ [G _]]] I F. inversion G as [|? ? [A _] _]; subst. split; [exact I|].
  rewrite forallb_forall in F. specialize (F _ I). change (t_kind (token_of x)) with (p_kind x) in *.
  destruct (operator_text (p_kind x)) as [s|] eqn:E; [|discriminate]. f_equal. symmetry.
  apply worded_operator; [exact E|exact A].
Qed.
Lemma fit_special x : fit (Tok x) -> p_kind x = SPECIAL -> special_operator (token_of x).
Proof.
  intros [_ [_ [G [_ K]]]] E. inversion G as [|? ? [A _] _]; subst. split; [exact E|].
  unfold worded in A. change (t_kind (token_of x)) with (p_kind x) in A. rewrite E in A.
  split; [|exact A]. apply (cutat_one U rest Uok Utr Ual); [rewrite E; reflexivity|exact K].
Qed.
Lemma fit_atom x : fit (Tok x) ->
  In (p_kind x) [IDENT; R_INTEGER_LITERAL; R_DOUBLE_LITERAL; R_COMPLEX_LITERAL; NEXT_KW; BREAK_KW;
    TRUE_KW; FALSE_KW; NULL_KW; INF_KW; NAN_KW; NA_LOGICAL_KW; NA_INTEGER_KW; NA_DOUBLE_KW;
    NA_COMPLEX_KW; NA_CHARACTER_KW; DOTS; DOTDOTI] ->
  LexSpec.leaf_tokens [token_of x].
Proof.
  intros [_ [_ [G [_ K]]]] I. inversion G as [|? ? [A _] _]; subst. cbn [LexSpec.leaf_tokens].
  assert (P : plain_kind (p_kind x) = true) by (cbn [In] in I; intuition (subst; try reflexivity);
    repeat match goal with H : _ = p_kind x |- _ => rewrite <- H; reflexivity end).
  split; [|split; [exact (cutat_one U rest Uok Utr Ual x P K)|]].
  - unfold plain_token. change (t_kind (token_of x)) with (p_kind x).
    cbn [In] in I. repeat (destruct I as [I|I]; [rewrite <- I; exact Logic.I|]). destruct I.
  - unfold worded in A. change (t_kind (token_of x)) with (p_kind x) in A.
    cbn [In] in I. repeat (destruct I as [I|I]; [rewrite <- I in A; exact A|]). destruct I.
Qed.
Lemma fit_string cs ts : fit (Node R_STRING_VALUE cs) -> AstModel.leaf_tokens cs = Some ts -> LexSpec.leaf_tokens ts.
Proof.
  intros [_ [C [G [_ K]]]] L.
  destruct (string_children cs C) as [[a [z [-> [Ka Kz]]]]|[a [b [z [-> [Ka [Kb Kz]]]]]]];
    cbn [AstModel.leaf_tokens] in L; injection L as <-; cbn [syn_tokens flat_map app] in *; cbn [LexSpec.leaf_tokens].
  - pose proof (Forall_inv G) as [Wa _]. pose proof (Forall_inv (Forall_inv_tail G)) as [Wz _].
    unfold worded in Wa, Wz. change (t_kind (token_of a)) with (p_kind a) in *.
    change (t_kind (token_of z)) with (p_kind z) in *. rewrite Ka in *. rewrite Kz in *.
    split; [reflexivity|]. split; [reflexivity|]. change (t_text (token_of ?x)) with (p_own x) in *.
    split; [exact (cutat_str2 U rest Uok Utr Ual a z Ka K)|]. destruct Wa as [W1 W2].
    split; [|split; [exact W2|exact Wz]]. exact W1.
  - pose proof (Forall_inv G) as [Wa _]. pose proof (Forall_inv (Forall_inv_tail (Forall_inv_tail G))) as [Wz _].
    unfold worded in Wa, Wz. change (t_kind (token_of a)) with (p_kind a) in *.
    change (t_kind (token_of b)) with (p_kind b) in *.
    change (t_kind (token_of z)) with (p_kind z) in *. rewrite Ka in *. rewrite Kb in *. rewrite Kz in *.
    split; [reflexivity|]. split; [reflexivity|]. split; [reflexivity|].
    split; [exact (cutat_str3 U rest Uok Utr Ual a b z Ka Kb K)|]. destruct Wa as [W1 W2].
    split; [|split; [exact W2|exact Wz]]. exact W1.
Qed.
Lemma fit_leaf k cs ts : fit (Node k cs) -> form_of k = FoLeaf -> cs <> [] ->
  AstModel.leaf_tokens cs = Some ts -> LexSpec.leaf_tokens ts.
Proof.
  intros F E N L. destruct (kind_eqb k R_STRING_VALUE) eqn:Ks.
  { apply kind_eqb_eq in Ks. subst k. exact (fit_string cs ts F L). }
  assert (N1 : k <> R_STRING_VALUE) by (intros ->; rewrite kind_eqb_refl in Ks; discriminate). clear Ks.
  destruct (ungram k) as [r|] eqn:Er.
  2:{ destruct F as [_ [C _]]. cbn [skel_syn complete] in C. rewrite Er in C. discriminate. }
  pose proof (node_kinds k cs r F Er) as O. pose proof (fit_children k cs F N1) as Fc.
  assert (Hk : exists l, r = Fields [Must l] /\ forall k, In k l ->
    In k [IDENT; R_INTEGER_LITERAL; R_DOUBLE_LITERAL; R_COMPLEX_LITERAL; NEXT_KW; BREAK_KW;
    TRUE_KW; FALSE_KW; NULL_KW; INF_KW; NAN_KW; NA_LOGICAL_KW; NA_INTEGER_KW; NA_DOUBLE_KW;
    NA_COMPLEX_KW; NA_CHARACTER_KW; DOTS; DOTDOTI]).
  { destruct k; try discriminate E; try discriminate Er; try (exfalso; exact (N1 eq_refl)); injection Er as <-;
      eexists; (split; [reflexivity|]); intros k I; cbn [In missing_values] in I |- *; tauto. }
  destruct Hk as [l [-> I]]. cbn [obeys] in O. destruct cs as [|c cs]; [contradiction|].
  rewrite map_cons, fill_must in O. apply andb_prop in O as [Oc O]. destruct cs; [|discriminate O].
  destruct c as [kc lc|x]; [discriminate L|]. cbn [AstModel.leaf_tokens] in L. injection L as <-.
  apply fit_atom; [exact (Forall_inv Fc)|]. apply I. apply one_of_true, Oc.
Qed.

Lemma form_kinds k f : form_of k = f -> f <> FoLeaf -> k <> R_STRING_VALUE.
Proof. intros H N ->. apply N. symmetry. exact H. Qed.
Ltac kids :=
  match goal with
  | F : fit (Node ?k _), E : form_of ?k = _ |- _ =>
    let X := fresh in
    pose proof (fit_children _ _ F (form_kinds k _ E ltac:(discriminate))) as X;
    repeat match type of X with
    | Forall fit (_ :: _) =>
      let A := fresh "K" in pose proof (Forall_inv X) as A; apply Forall_inv_tail in X
    end
  end.
Lemma fit_kinds k cs : fit (Node k cs) -> exists r, ungram k = Some r /\ obeys r (map syn_kind cs) = true.
Proof.
  intros F. destruct (ungram k) as [r|] eqn:Er.
  - exists r. split; [reflexivity|]. exact (node_kinds k cs r F Er).
  - destruct F as [_ [C _]]. cbn [skel_syn complete] in C. rewrite Er in C. discriminate.
Qed.
Lemma tok_kind x : syn_kind (Tok x) = p_kind x.
Proof. reflexivity. Qed.
Lemma tokens_fitted p g t e : reads pl p g t e -> reads pl p g t e -> fit t -> everywhere tokens_fit e.
Proof.
  revert p g t e.
  apply (reads_mind pl
    (fun p g t e => reads pl p g t e -> fit t -> everywhere tokens_fit e)
    (fun s q i g l es => Forall fit l -> all_of (everywhere tokens_fit) es)
    (fun s q i g l es => Forall fit l -> all_of (everywhere tokens_fit) es)); intros;
    cbn [all_of]; auto.
  all: try match goal with
  | F : fit (Node ?k ?cs), R : reads _ _ _ (Node ?k ?cs) ?e |- everywhere tokens_fit ?e =>
    pose proof (fit_reads _ _ _ _ R F eq_refl) as Hr;
    assert (Hf : tokens_lexical e -> tokens_fit e) by (intros Ht; exact (conj Ht Hr)); clear Hr
  end.
  all: try (kids; split; [apply Hf; exact I|]; cbn [opt_all]; auto; fail).
  all: try (kids; match goal with
    | K : fit (Node ?lk ?l), E : ?lk = _ |- _ =>
      pose proof (fit_children lk l K ltac:(rewrite E; discriminate))
    end; split; [apply Hf; exact I|auto]; fail).
  - split; [|exact I]. apply Hf. cbn [tokens_lexical]. exact (fit_leaf k cs ts H3 H H0 H1).
  - kids. split; [apply Hf|auto]. cbn [tokens_lexical].
    destruct (fit_kinds _ _ H4) as [r [Er O]]. destruct k; try discriminate H. injection Er as <-.
    cbn [obeys] in O. rewrite map_cons, fill_must in O. apply andb_prop in O as [O _].
    apply one_of_true in O. apply fit_operator; [assumption|exact O|reflexivity].
  - kids. split; [apply Hf|auto]. cbn [tokens_lexical].
    destruct (fit_kinds _ _ H7) as [r0 [Er O]]. destruct k; try discriminate H. injection Er as <-.
    cbn [obeys] in O. rewrite !map_cons, !fill_must in O. apply andb_prop in O as [_ O].
    apply andb_prop in O as [O _]. apply one_of_true in O. rewrite tok_kind in O.
    destruct (kind_eqb (p_kind op) SPECIAL) eqn:Es.
    + right. apply kind_eqb_eq in Es. apply fit_special; assumption.
    + left. apply fit_operator; [assumption| |reflexivity].
      assert (Ns : p_kind op <> SPECIAL) by (intros Es'; rewrite Es' in Es; discriminate).
      clear - O Ns. unfold binary_operators, binary_kinds in *. cbn [In] in *. intuition congruence.
  - kids. split; [apply Hf|auto]. cbn [tokens_lexical].
    destruct (fit_kinds _ _ H7) as [r0 [Er O]]. destruct k; try discriminate H. injection Er as <-.
    cbn [obeys] in O. rewrite !map_cons, !fill_must in O. apply andb_prop in O as [_ O].
    apply andb_prop in O as [O _]. apply one_of_true in O.
    apply fit_operator; [assumption|exact O|reflexivity].
  - kids. split; [apply Hf|auto]. cbn [tokens_lexical].
    destruct (fit_kinds _ _ H7) as [r0 [Er O]]. destruct k; try discriminate H. injection Er as <-.
    cbn [obeys] in O. rewrite !map_cons, !fill_must in O. apply andb_prop in O as [_ O].
    apply andb_prop in O as [O _]. apply one_of_true in O.
    apply fit_operator; [assumption|exact O|reflexivity].
  - kids. split; [apply Hf|auto]. cbn [tokens_lexical].
    destruct (fit_kinds _ _ H7) as [r0 [Er O]]. destruct k; try discriminate H. injection Er as <-.
    cbn [obeys] in O. rewrite map_cons, fill_must in O. apply andb_prop in O as [O _].
    apply one_of_true in O. apply fit_operator; [assumption|exact O|reflexivity].
  - pose proof (Forall_inv H4). apply Forall_inv_tail in H4. split; auto.
  - pose proof (Forall_inv H2). split; auto.
  - pose proof (Forall_inv H6). apply Forall_inv_tail, Forall_inv_tail in H6.
    split; [apply separator_fit|]; auto.
Qed.
Lemma list_fitted s q i g l es : reads_list pl s q i g l es -> Forall fit l ->
  all_of (everywhere tokens_fit) es.
Proof.
  induction 1 as [|s q i g x e r es R So _ IH]; intros F; cbn; [exact I|].
  inversion F; subst. split; [eapply tokens_fitted; eassumption|auto].
Qed.
End Fit.

(** Comments of a tree. *)
Lemma wrap_texts (n : notes) inner (P : text -> Prop) : Forall P (wrap_comments n inner) ->
  Forall (fun c => P (c_text c)) (n_lead n ++ n_dang n ++ n_trail n) /\ Forall P inner.
Proof.
  unfold wrap_comments. intros F. apply Forall_app in F as [A F]. apply Forall_app in F as [B F].
  apply Forall_app in F as [C D]. split; [|exact B].
  rewrite Forall_app, Forall_app. rewrite !Forall_map in *. auto.
Qed.
Lemma lexical_everywhere e : everywhere tokens_fit e -> Forall comment_ok (ecomments e) ->
  everywhere lexical_node e.
Proof.
  assert (All : forall l, Forall (fun e => everywhere tokens_fit e -> Forall comment_ok (ecomments e) -> everywhere lexical_node e) l ->
    all_of (everywhere tokens_fit) l -> Forall comment_ok (List.concat (map ecomments l)) -> all_of (everywhere lexical_node) l).
  { induction 1 as [|x l H F IH]; intros A C; [exact I|]. destruct A as [A1 A2]. cbn [map List.concat] in C.
    apply Forall_app in C as [C1 C2]. cbn. auto. }
  assert (Opt : forall x, opt_all (fun e => everywhere tokens_fit e -> Forall comment_ok (ecomments e) -> everywhere lexical_node e) x ->
    opt_all (everywhere tokens_fit) x -> Forall comment_ok (opt_list ecomments x) -> opt_all (everywhere lexical_node) x).
  { intros [x|] H A; [exact (H A)|intros _; exact I]. }
  induction e using expr_ind'; intros [[T S] A] C; cbn [ecomments] in C; apply wrap_texts in C as [C0 C];
    (split; [exact (conj T (conj C0 S))|]); cbn [everywhere] in *; rewrite ?Forall_app in C;
    repeat match goal with H : _ /\ _ |- _ => destruct H end; repeat split; auto.
Qed.

(** * Where comments end *)

Definition comment_at (src : text) (s e : nat) : Prop :=
  exists a x b, src = a ++ x ++ b /\ blen a = s /\ (s + blen x)%nat = e /\ at_line_end b = true /\ comment_ok x.
Lemma laid_comment ls : forall pre rest s e, laid (blen pre) ls rest = true -> In (LCom s e) ls ->
  comment_at (pre ++ rest) s e.
Proof.
  induction ls as [|l ls IH]; intros pre rest s e H Hi; [contradiction|]. cbn [laid] in H.
  apply andb_prop in H as [H0 H]. apply andb_prop in H0 as [Ha Hb].
  apply Nat.leb_le in Ha, Hb.
  destruct (split_at (leaf_start l - blen pre) rest) as [[g r1]|] eqn:E1; [|discriminate].
  apply andb_prop in H as [_ H].
  destruct (split_at (leaf_end l - leaf_start l) r1) as [[x r2]|] eqn:E2; [|discriminate].
  apply andb_prop in H as [Hl H]. apply split_at_iff in E1 as [E1 L1], E2 as [E2 L2]. subst rest r1.
  destruct Hi as [->|Hi].
  - cbn [leaf_start leaf_end] in *. exists (pre ++ g), x, r2. rewrite <- app_assoc, blen_app.
    split; [reflexivity|]. split; [lia|]. split; [lia|].
    unfold leaf_ok in Hl. apply andb_prop in Hl as [_ Hl]. apply andb_prop in Hl as [Hl He].
    apply andb_prop in Hl as [Hh Hn]. split; [exact He|]. split.
    + destruct x; [discriminate|exact Hh].
    + unfold no_lf in Hn. rewrite forallb_forall in Hn. intros Hi. specialize (Hn LF Hi). discriminate.
  - specialize (IH (pre ++ g ++ x) r2 s e). rewrite !blen_app in IH.
    replace (blen pre + (blen g + blen x))%nat with (leaf_end l) in IH by lia.
    rewrite <- !app_assoc in IH. apply IH; assumption.
Qed.
Lemma at_same (a b c d : text) : a ++ b = c ++ d -> blen a = blen c -> b = d.
Proof.
  intros E L. pose proof (split_at_app a b) as A. rewrite E, L, split_at_app in A. congruence.
Qed.
Lemma trivia_from src tr xs : forall pre post, src = pre ++ pieces_text xs ++ post ->
  forallb piece_ok xs = true ->
  (forall s e f, In (s, e, f) (placed_comments (ParseSpec.place tr (blen pre) xs)) -> comment_at src s e) ->
  trivia_ok xs post.
Proof.
  induction xs as [|[k x] xs IH]; intros pre post E P H; [exact I|].
  cbn [forallb] in P. apply andb_prop in P as [Px P].
  unfold pieces_text in E. cbn [flat_map snd] in E. fold (pieces_text xs) in E. rewrite <- app_assoc in E.
  cbn [ParseSpec.place] in H. split; [exact Px|]. split.
  - cbn [fst]. intros ->. destruct (H (blen pre) (blen pre + blen x)%nat tr) as [a [y [b [E' [La [Lx [Le _]]]]]]].
    { left. reflexivity. }
    rewrite E in E'. pose proof E' as E2. apply at_same in E2; [|lia].
    apply at_same in E2; [|lia]. rewrite E2. exact Le.
  - apply (IH (pre ++ x) post).
    + rewrite <- app_assoc. exact E.
    + exact P.
    + intros s e f Hi. apply (H s e f). rewrite blen_app in Hi. unfold placed_comments. cbn [flat_map].
      apply in_or_app. right. exact Hi.
Qed.
Lemma parts_trivia_from src ps : forall pre, src = pre ++ flat_map parts_text ps ->
  Forall (fun p => forallb piece_ok (p_leading p) = true /\ forallb piece_ok (p_trailing p) = true) ps ->
  (forall s e f, In (s, e, f) (placed_comments (placed_trivia (blen pre) ps)) -> comment_at src s e) ->
  parts_trivia ps [].
Proof.
  induction ps as [|p ps IH]; intros pre E F H; [exact I|].
  inversion F as [|? ? [F1 F2] Fr]; subst.
  assert (E1 : pre ++ flat_map parts_text (p :: ps) =
    pre ++ pieces_text (p_leading p) ++ p_own p ++ pieces_text (p_trailing p) ++ flat_map parts_text ps).
  { cbn [flat_map]. unfold parts_text. rewrite <- !app_assoc. reflexivity. }
  cbn [placed_trivia] in H. rewrite !placed_comments_app in H. cbn [parts_trivia]. rewrite !app_nil_r.
  split; [|split].
  - apply (trivia_from _ false _ pre _ E1 F1). intros s e f Hi. apply (H s e f). apply in_or_app. auto.
  - rewrite (app_assoc pre), (app_assoc (pre ++ _)) in E1.
    apply (trivia_from _ true _ _ _ E1 F2). intros s e f Hi. apply (H s e f).
    rewrite !blen_app in Hi. apply in_or_app. right. apply in_or_app. auto.
  - apply (IH (pre ++ parts_text p)).
    + rewrite <- app_assoc. reflexivity.
    + exact Fr.
    + intros s e f Hi. apply (H s e f). rewrite blen_app in Hi. apply in_or_app. right. apply in_or_app. auto.
Qed.

(** * Strings *)

Lemma own_ranges_app a : forall pos b, own_ranges pos (a ++ b) =
  own_ranges pos a ++ own_ranges (pos + blen (flat_map parts_text a)) b.
Proof.
  induction a as [|x a IH]; intros pos b; [cbn; rewrite Nat.add_0_r; reflexivity|].
  cbn [app own_ranges flat_map]. rewrite IH, blen_app, Nat.add_assoc. reflexivity.
Qed.
Lemma strings_tight_at a : forall k s e k' s' e' b,
  strings_tight (a ++ (k, s, e) :: (k', s', e') :: b) -> string_goes_on k = true -> s' = e.
Proof.
  induction a as [|[[k0 s0] e0] a IH]; intros k s e k' s' e' b H G.
  - cbn in H. apply H, G.
  - apply (IH k s e k' s' e' b); [|exact G]. destruct a as [|[[k1 s1] e1] a]; cbn in H |- *; apply H.
Qed.
Lemma pieces_none xs : forallb piece_ok xs = true -> blen (pieces_text xs) = 0%nat -> xs = [].
Proof.
  destruct xs as [|[k x] xs]; [reflexivity|]. cbn [forallb]. intros P E. exfalso.
  apply andb_prop in P as [P _]. unfold pieces_text in E. cbn [flat_map snd] in E. rewrite blen_app in E.
  assert (X : blen x = 0%nat) by lia.
  destruct k; cbn [piece_ok fst snd] in P.
  - rewrite X in P. discriminate.
  - rewrite !orb_true_iff in P. destruct P as [[P|P]|P]; apply text_eqb_eq in P; subst x; discriminate X.
  - destruct x as [|c x]; [discriminate|]. cbn [blen] in X. pose proof (utf8_len_pos c). lia.
Qed.
Lemma tight_from ps : strings_tight (own_ranges 0 ps) ->
  Forall (fun p => forallb piece_ok (p_leading p) = true /\ forallb piece_ok (p_trailing p) = true) ps ->
  tight ps.
Proof.
  intros S F a x y b E G. subst ps. rewrite own_ranges_app in S. cbn [own_ranges] in S.
  apply strings_tight_at in S; [|exact G]. apply Forall_app in F as [_ F].
  inversion F as [|? ? [_ Fx] Fr]; subst. inversion Fr as [|? ? [Fy _] _]; subst.
  unfold parts_text in S. rewrite !blen_app in S.
  split; apply pieces_none; try assumption; lia.
Qed.

(** * The source *)

Section Source.
Variables (rf : bool) (src : text) (t : ts) (r : root).
Hypothesis W : well_parsed src t.
Hypothesis C : conforms t = true.
Hypothesis Sp : spelled src t.
Hypothesis Rd : read_by_r src t.
Hypothesis F : source_root rf src t = Some r.

Lemma source_comments_ok : Forall comment_ok (source_comments src t).
Proof.
  destruct W as [_ [_ L]]. unfold source_comments. apply Forall_forall. intros x Hx.
  apply in_flat_map in Hx as [[k s e|s e] [Hi Hx]]; [contradiction|].
  destruct (laid_comment (leaves t) [] src s e L Hi) as [a [y [b [E [La [Lx [_ O]]]]]]].
  cbn [app] in E. rewrite <- Lx, <- La, (slice_mid src a y b E) in Hx.
  destruct Hx as [<-|[]]. exact O.
Qed.

Lemma source_bom : r_bom r = None.
Proof.
  destruct (source_root_front rf src t r F) as [g [s [P [O H]]]].
  destruct (front_end_reads rf s r H) as [cs [e [lk [l [b [q [n [-> [-> [-> [Ke [Hb _]]]]]]]]]]]].
  pose proof (open_skel g _ O) as Sk.
  pose proof (structure_holds src t g W P) as St. pose proof (shape_skel g 0) as Ss. rewrite St, <- Sk in Ss.
  cbn [skel_shape skel_syn map] in Ss. injection Ss as Ss.
  destruct (r_bom r) as [y|]; [|reflexivity]. destruct Hb as [z [-> _]]. discriminate Ss.
Qed.
Theorem source_lexical : lexical r.
Proof.
  destruct (source_root_front rf src t r F) as [g [s [P [O H]]]].
  destruct (front_end_reads rf s r H) as [cs [e [lk [l [b [q [n [-> [-> [-> [Ke [Hb [Hn Hl]]]]]]]]]]]]].
  pose proof (open_skel g _ O) as Sk.
  pose proof source_bom as Hbom. rewrite Hbom in Hb. destruct Hb as [-> _]. cbn [app] in *.
  destruct (parsed_kept src t W C) as [g' [P' [Cg _]]]. rewrite P in P'. injection P' as <-.
  rewrite <- Sk in Cg. cbn [skel_syn complete ungram map] in Cg. apply andb_prop in Cg as [_ Cg].
  cbn [forallb] in Cg. apply andb_prop in Cg as [Cl _].
  pose proof (open_green_tokens g _ O) as T.
  destruct (tokens_and_trivia_holds src t g W P) as [ps [T' [Fm [Ow [_ Pk]]]]].
  pose proof (comments_kept_holds src t g ps W P T') as Cm.
  rewrite T' in T. apply map_some_inj in T. subst ps.
  pose proof (source_tokens_eq src t g _ W P O) as Te.
  cbn [syn_tokens flat_map] in *. fold (flat_map syn_tokens l) in *. rewrite app_nil_r in *.
  set (toks := flat_map syn_tokens l) in *.
  rewrite own_ranges_app in Ow. cbn [own_ranges] in Ow. apply app_inj_tail in Ow as [Ow _].
  rewrite map_app in Te. apply app_inj_tail in Te as [Te _].
  destruct Rd as [[L [Lx Lc]] [Wd Ti]]. rewrite <- Te in Lc, Wd. rewrite <- Ow in Ti.
  assert (Pt : parts_trivia (toks ++ [e]) []).
  { apply (parts_trivia_from src _ []); [symmetry; exact Fm|exact Pk|].
    intros s0 e0 f Hi. cbn [blen] in Hi. apply (in_map fst) in Hi. rewrite Cm in Hi. cbn [fst] in Hi.
    apply in_flat_map in Hi as [[k s1 e1|s1 e1] [Hi Hx]]; [contradiction|].
    destruct Hx as [Hx|[]]. injection Hx as <- <-. destruct W as [_ [_ La]].
    exact (laid_comment (leaves t) [] src s1 e1 La Hi). }
  apply parts_trivia_app in Pt. apply Forall_app in Pk as [Pk _].
  assert (Tg : tight toks) by (apply tight_from; assumption).
  assert (Gd : Forall good_word toks).
  { unfold spelled in Sp. rewrite <- Te in Sp. rewrite Forall_map in Wd, Sp.
    apply Forall_forall. intros x Hx. rewrite Forall_forall in Wd, Sp. split; [apply Wd, Hx|exact (Sp x Hx)]. }
  assert (Sm : simple (syn_kind (Node R_EXPRESSION_LIST l)) = true) by reflexivity.
  destruct (tree_splits (Node R_EXPRESSION_LIST l) Sm Cl Gd Tg) as [U HU]. cbn [syn_tokens] in HU. fold toks in HU.
  set (rest := flat_map parts_text [e] ++ []) in *.
  assert (Ual : aligned Between (all_text U ++ rest) (all_lex U ++ [])).
  { rewrite (splits_text _ _ HU), (splits_lex _ _ HU), app_nil_r, <- Lc. unfold rest. rewrite app_nil_r.
    rewrite <- flat_map_app, Fm. split; [split; [exact I|left; exact I]|].
    unfold lex in Lx. destruct (see_all Between src) as [[a p]|] eqn:Sa; [|discriminate].
    destruct (the_end p) as [z|] eqn:Ez; [|discriminate]. injection Lx as <-.
    exists a, p, z. auto. }
  pose proof (splits_ok _ _ HU) as Uok. pose proof (splits_trivia _ _ HU _ Pt) as Utr.
  assert (Fl : Forall (fit U) l).
  { apply (fit_children U R_EXPRESSION_LIST); [|discriminate].
    split; [exact Sm|]. split; [exact Cl|]. split; [exact Gd|]. split; [exact Tg|].
    exists [], U, []. rewrite app_nil_r. split; [exact HU|reflexivity]. }
  pose proof (list_fitted U rest Uok Utr Ual _ _ _ _ _ _ _ Hl Fl) as Ft.
  pose proof (source_front_comments rf src t r W F) as Pc.
  assert (Co : Forall comment_ok (root_comments r)).
  { eapply Permutation_Forall; [apply Permutation_sym, Pc|apply source_comments_ok]. }
  unfold root_comments in Co. apply wrap_texts in Co as [Cn Ce].
  split; [rewrite Hbom; exact I|]. split; [exact Cn|].
  clear - Ft Ce. induction (r_exprs r) as [|x xs IH]; [exact I|]. cbn in Ft, Ce |- *. destruct Ft as [A B].
  apply Forall_app in Ce as [Cx Cr]. split; [apply lexical_everywhere; assumption|auto].
Qed.
End Source.

(** * The output *)

Lemma source_read rf src t r o pc out txt :
  well_parsed src t -> conforms t = true -> spelled src t -> read_by_r src t ->
  source_root rf src t = Some r -> root_tables_clear o r ->
  cell_printer pc -> prints (root_doc o pc r) out -> rendered out txt ->
  exists ts ts' L, retok (o_assignment_style o) (source_tokens src t) ts /\
    Forall2 (fun t t' => t' = t \/ same_token t t') ts ts' /\
    lex txt = Some L /\ code L = lexemes ts'.
Proof.
  intros W C S R F T Cp P Re. pose proof (source_front_shaped rf src t r F) as Sh.
  destruct (output_read o pc r out txt Cp Sh (source_front_placed rf src t r F o T)
              (source_lexical rf src t r W C S R F) P Re) as [es [ts [L [Ti [Al [Lx Co]]]]]].
  exists (List.concat (map etokens es)), ts, L. split; [|auto].
  rewrite <- (source_front_tokens rf src t r W F). unfold root_tokens.
  rewrite (source_bom rf src t r W F).
  cbn [opt_list app]. clear - Ti Sh. unfold root_shaped in Sh.
  induction Ti as [|x y l l' X Ti IH]; [constructor|]. destruct Sh as [[_ Sx] Sh]. cbn [map List.concat].
  apply RT_app; [exact (tidy_Tok o _ _ _ X Sx)|exact (IH Sh)].
Qed.
