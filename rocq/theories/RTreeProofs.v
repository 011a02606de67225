(** What R reads of a tree's tokens, and copied ranges in wider contexts. *)
From Coq Require Import List NArith Bool Arith Lia String.
From Verif Require Import Text TextFacts LineEndingSpec SettingsModel SyntaxKind DirectiveModel FmtTree IrModel
  FmtSpec LexSpec LexProofs LexRunProofs LexSealProofs LexTreeProofs RReadSpec FmtLineSpec FmtTidyInd
  FmtFactProofs FmtLineRunProofs FmtLineProofs RTextSpec RReadProofs RNestProofs RRunProofs.
Import ListNotations.
Local Open Scope N_scope.

(** * Tokens that R takes for what they are *)

Definition flat_token (t : token) : Prop :=
  flat_kind (t_kind t) = true /\ kind_of (t_text t) = t_kind t /\ LexSpec.is_comment (t_text t) = false.
Definition leaf_read (ts : list token) : Prop :=
  match ts with
  | [t] => flat_token t /\ t_kind t <> ELSE_KW
  | [a; z] => t_kind a = STRING_OPEN /\ t_kind z = STRING_CLOSE /\ string_token (t_text a) (t_text z)
  | [a; b; z] =>
    t_kind a = STRING_OPEN /\ t_kind b = STRING_CONTENT /\ t_kind z = STRING_CLOSE /\ t_text b <> [] /\
    string_token (t_text a) (t_text z)
  | _ => False
  end.
Definition node_read (e : expr) : Prop :=
  match e with
  | ELeaf _ _ ts => leaf_read ts
  | EUnary _ op _ | EBinary _ _ op _ | EExtract _ _ op _ | ENamespace _ _ op _ | EFunction _ op _ _ =>
    flat_token op /\ t_kind op <> ELSE_KW
  | _ => True
  end.

Lemma operator_flat ks t : operator ks t ->
  forallb (fun k => flat_kind k && negb (kind_eqb k ELSE_KW) &&
     match operator_text k with
     | Some x => kind_eqb (kind_of x) k && negb (LexSpec.is_comment x)
     | None => true end) ks = true ->
  flat_token t /\ t_kind t <> ELSE_KW.
Proof.
  intros [I E] F. rewrite forallb_forall in F. specialize (F _ I). rewrite E in F.
  apply andb_true_iff in F. destruct F as [F1 F2]. apply andb_true_iff in F1, F2.
  destruct F1 as [F1 F3], F2 as [F2 F4]. apply kind_eqb_eq in F2.
  apply negb_true_iff in F3, F4. split; [repeat split; assumption|]. apply kind_eqb_neq, F3.
Qed.
Lemma special_flat t : special_operator t -> flat_token t /\ t_kind t <> ELSE_KW.
Proof.
  intros [K [_ S]]. destruct (t_text t) as [|c r] eqn:E; [destruct S|]. cbn [starts_with] in S.
  apply N.eqb_eq in S. subst c. unfold flat_token. rewrite K, E. split; [|discriminate].
  split; [reflexivity|]. split; [|reflexivity]. unfold kind_of.
  destruct (find _ words) as [w|] eqn:F; [|reflexivity]. exfalso. apply find_some in F.
  destruct F as [I F]. apply text_eqb_eq in F.
  assert (A : forallb (fun w : text * kind => negb (match fst w with c :: _ => c =? PERCENT | [] => false end))
                words = true) by reflexivity.
  rewrite forallb_forall in A. specialize (A w I). rewrite F in A. discriminate.
Qed.
Lemma leaf_flat ts : leaf_tokens ts -> classed_leaf ts -> all_of (has_role RoPlain) ts -> leaf_read ts.
Proof.
  destruct ts as [|t [|u [|v [|w ts]]]]; cbn [leaf_tokens classed_leaf leaf_read]; try tauto.
  - intros [Pl [_ [S _]]] C [R _]. split.
    + split; [|split; [exact C|]].
      * unfold plain_token in Pl. unfold has_role in R. destruct (t_kind t); try discriminate; tauto.
      * destruct (t_text t) as [|c r]; [reflexivity|]. cbn [starts_with LexSpec.is_comment] in *.
        destruct (N.eqb_spec c HASH) as [->|]; [discriminate S|reflexivity].
    + unfold has_role in R. intros Q. rewrite Q in R. discriminate.
  - intros [A [Z _]] [C1 C2] _. split; [exact A|]. split; [exact Z|]. split; assumption.
  - intros [A [B [Z _]]] [C0 [C1 C2]] _. split; [exact A|]. split; [exact B|]. split; [exact Z|].
    split; [exact C0|]. split; assumption.
Qed.

Lemma tree_read P e : forall c0 c, tame P c0 c e -> everywhere lexical_node e -> everywhere classed_node e ->
  everywhere node_read e.
Proof.
  assert (All : forall c0 c l,
    Forall (fun e => forall c0 c, tame P c0 c e -> everywhere lexical_node e -> everywhere classed_node e ->
      everywhere node_read e) l ->
    all_of (tame P c0 c) l -> all_of (everywhere lexical_node) l -> all_of (everywhere classed_node) l ->
    all_of (everywhere node_read) l).
  { intros c0 c. induction 1 as [|x l H F IH]; intros A B C; [exact I|].
    destruct A as [A1 A2], B as [B1 B2], C as [C1 C2]. split; [eauto|auto]. }
  assert (Opt : forall c0 c x,
    Popt (fun e => forall c0 c, tame P c0 c e -> everywhere lexical_node e -> everywhere classed_node e ->
      everywhere node_read e) x ->
    opt_all (tame P c0 c) x -> opt_all (everywhere lexical_node) x -> opt_all (everywhere classed_node) x ->
    opt_all (everywhere node_read) x).
  { intros c0 c [x|] H A B C; [exact (H c0 c A B C)|exact I]. }
  induction e as [n k ts|n op a IH|n l op r IHl IHr|n l op r IHl IHr|n l op r IHl IHr
    |n name ps b IHp IHb|n items IH|n a d IHa IHd|n v IH|n c t el IHc IHt IHe|n nl a IH
    |n v s b IHv IHs IHb|n c b IHc IHb|n b IH|n es IH|n b IH|n f args IHf IHa|n k rc items IH
    |n nm v sl IHn IHv|n nm IH] using expr_ind'; intros c0 c1 [_ T] [[Lx _] L] [C C'];
    cbn [tame everywhere classed_node tokens_lexical node_read] in *.
  - split; [|exact I]. exact (leaf_flat _ Lx C T).
  - destruct T as [_ [_ T]]. split; [exact (operator_flat _ _ Lx eq_refl)|eauto].
  - destruct T as [_ [T1 T2]], L as [L1 L2], C' as [C1 C2]. split; [|split; eauto].
    destruct Lx as [Lx|Lx]; [exact (operator_flat _ _ Lx eq_refl)|exact (special_flat _ Lx)].
  - destruct T as [_ [T1 T2]], L as [L1 L2], C' as [C1 C2].
    split; [exact (operator_flat _ _ Lx eq_refl)|split; eauto].
  - destruct T as [_ [T1 [T2 _]]], L as [L1 L2], C' as [C1 C2].
    split; [exact (operator_flat _ _ Lx eq_refl)|split; eauto].
  - destruct T as [_ [T1 T2]], L as [L1 L2], C' as [C1 C2].
    split; [exact (operator_flat _ _ Lx eq_refl)|split; eauto].
  - split; [exact I|eauto].
  - destruct T as [T1 T2], L as [L1 L2], C' as [C1 C2]. split; [exact I|split; eauto].
  - split; [exact I|eauto].
  - destruct T as [T1 [T2 T3]], L as [L1 [L2 L3]], C' as [C1 [C2 C3]].
    split; [exact I|split; [eauto|split; eauto]].
  - destruct T as [_ T]. split; [exact I|eauto].
  - destruct T as [T1 [T2 T3]], L as [L1 [L2 L3]], C' as [C1 [C2 C3]].
    split; [exact I|split; [eauto|split; eauto]].
  - destruct T as [T1 T2], L as [L1 L2], C' as [C1 C2]. split; [exact I|split; eauto].
  - split; [exact I|eauto].
  - split; [exact I|eauto].
  - split; [exact I|eauto].
  - destruct T as [T1 [T2 _]], L as [L1 L2], C' as [C1 C2]. split; [exact I|split; eauto].
  - split; [exact I|eauto].
  - destruct T as [T1 T2], L as [L1 L2], C' as [C1 C2]. split; [exact I|split; eauto].
  - split; [exact I|eauto].
Qed.

(** * Marks stand only inside delimiters *)

Inductive inward : list (token * bool) -> Prop :=
| I_nil : inward []
| I_one t : flat_token t -> inward [(t, false)]
| I_string2 a z : t_kind a = STRING_OPEN -> t_kind z = STRING_CLOSE ->
    string_token (t_text a) (t_text z) -> inward [(a, false); (z, false)]
| I_string3 a c z : t_kind a = STRING_OPEN -> t_kind c = STRING_CONTENT -> t_kind z = STRING_CLOSE ->
    t_text c <> [] -> string_token (t_text a) (t_text z) -> inward [(a, false); (c, false); (z, false)]
| I_pair o c l : opener (t_kind o) = Some (t_text o) -> closer (t_kind c) = Some (t_kind o, t_text c) ->
    nested l -> calm l -> inward ((o, false) :: l ++ [(c, false)])
| I_app x y : inward x -> inward y -> inward (x ++ y).

Lemma inward_nested l : inward l -> nested l.
Proof.
  induction 1 as [|t [F [K C]]| | |o c l O C N Ca|x y X IX Y IY]; try (constructor; assumption).
Qed.
Lemma calm_app x y : calm x -> calm y -> calm (x ++ y).
Proof. intros A B. apply Forall_app. auto. Qed.
Lemma unmarked_calm t : calm [(t, false)].
Proof. constructor; [reflexivity|constructor]. Qed.
Lemma inward_calm l : inward l -> calm l.
Proof.
  induction 1 as [|t T|a z A Z T|a c z A C Z N T|o c l O C N Ca|x y X IX Y IY].
  - constructor.
  - apply unmarked_calm.
  - repeat constructor.
  - repeat constructor.
  - change ((o, false) :: l ++ [(c, false)]) with ([(o, false)] ++ l ++ [(c, false)]).
    apply calm_app; [apply unmarked_calm|]. apply calm_app; [exact Ca|apply unmarked_calm].
  - apply calm_app; assumption.
Qed.

(** Where braces or the file may begin a line. *)
Definition headed (l : list (token * bool)) : Prop :=
  match l with (t, _) :: _ => t_kind t <> ELSE_KW | [] => True end.
Definition sound (e : expr) : Prop := inward (lines e) /\ (sort_of e = SoExpr -> headed (lines e)).

Lemma calm_flag b l : headed l -> calm l -> calm (flag b l).
Proof.
  destruct l as [|[t f] l]; [auto|]. cbn [headed flag]. intros H C. inversion C; subst.
  constructor; [|assumption]. cbn [fst snd]. intros Q. contradiction.
Qed.
Lemma statements_read ls : Forall (fun l => nested l /\ calm l /\ headed l) ls ->
  nested (statements ls) /\ calm (statements ls).
Proof.
  destruct 1 as [|x r [X [Xc Xh]] F]; [split; constructor|]. cbn [statements].
  assert (R : nested (List.concat (map (flag true) r)) /\ calm (List.concat (map (flag true) r))).
  { induction F as [|y r [Y [Yc Yh]] F IH]; [split; constructor|]. destruct IH as [I1 I2].
    cbn [map List.concat]. split.
    - constructor; [apply nested_flag, Y|exact I1].
    - apply calm_app; [apply calm_flag; assumption|exact I2]. }
  destruct R as [R1 R2]. split; [constructor; assumption|apply calm_app; assumption].
Qed.
Lemma commas_read ls : Forall inward ls -> inward (listed_by_commas ls).
Proof.
  induction 1 as [|x [|y r] X F IH]; [constructor|exact X|]. cbn [listed_by_commas] in *.
  constructor; [exact X|]. change (inline tCOMMA :: ?z) with ([(tCOMMA, false)] ++ z).
  constructor; [|exact IH]. constructor. repeat split.
Qed.
Lemma fixed t : flat_kind (t_kind t) && kind_eqb (kind_of (t_text t)) (t_kind t) &&
  negb (LexSpec.is_comment (t_text t)) = true -> inward [inline t].
Proof.
  intros H. apply andb_true_iff in H. destruct H as [H H3]. apply andb_true_iff in H. destruct H as [H1 H2].
  apply kind_eqb_eq in H2. apply negb_true_iff in H3. constructor. repeat split; assumption.
Qed.
Lemma inward_cons t l : inward [inline t] -> inward l -> inward (inline t :: l).
Proof. intros T L. change (inline t :: l) with ([inline t] ++ l). constructor; assumption. Qed.
Lemma inward_round l : inward l -> inward (inline tLPAREN :: l ++ [inline tRPAREN]).
Proof. intros H. apply I_pair; try reflexivity; [exact (inward_nested _ H)|exact (inward_calm _ H)]. Qed.
Lemma inward_args k l : inward l -> inward (inline (l_token k) :: l ++ [inline (r_token k)]).
Proof.
  intros H. destruct k; apply I_pair; try reflexivity; try exact (inward_nested _ H); exact (inward_calm _ H).
Qed.
Lemma inward_curly l : nested l -> calm l -> inward (inline tLCURLY :: l ++ [inline tRCURLY]).
Proof. intros N C. apply I_pair; try reflexivity; assumption. Qed.
Lemma headed_app x y : x <> [] -> headed x -> headed (x ++ y).
Proof. destruct x as [|[t b] x]; [contradiction|auto]. Qed.
Lemma inward_opt x : Popt (fun e => inward (lines e)) x -> inward (opt_list lines x).
Proof. destruct x as [e|]; [auto|constructor]. Qed.

Lemma tree_sound e : shaped e -> everywhere node_read e -> sound e.
Proof.
  assert (All : forall s l, Forall (fun e => shaped e -> everywhere node_read e -> sound e) l ->
    all_of (fun x => sort_of x = s /\ shaped x) l -> all_of (everywhere node_read) l ->
    Forall sound l).
  { intros s. induction 1 as [|x l H F IH]; intros A B; [constructor|].
    destruct A as [[_ A1] A2], B as [B1 B2]. constructor; auto. }
  assert (AllI : forall s l, Forall (fun e => shaped e -> everywhere node_read e -> sound e) l ->
    all_of (fun x => sort_of x = s /\ shaped x) l -> all_of (everywhere node_read) l ->
    Forall inward (map lines l)).
  { intros s l H A B. pose proof (All s l H A B) as F. clear - F.
    induction F as [|x l [X _] F IH]; constructor; assumption. }
  assert (Opt : forall s x, Popt (fun e => shaped e -> everywhere node_read e -> sound e) x ->
    opt_all (fun x => sort_of x = s /\ shaped x) x -> opt_all (everywhere node_read) x ->
    Popt (fun e => inward (lines e)) x).
  { intros s [x|] H A B; [|exact I]. exact (proj1 (H (proj2 A) B)). }
  induction e as [n k ts|n op a IH|n l op r IHl IHr|n l op r IHl IHr|n l op r IHl IHr
    |n name ps b IHp IHb|n items IH|n a d IHa IHd|n v IH|n c t el IHc IHt IHe|n nl a IH
    |n v s b IHv IHs IHb|n c b IHc IHb|n b IH|n es IH|n b IH|n f args IHf IHa|n k rc items IH
    |n nm v sl IHn IHv|n nm IH] using expr_ind'; intros S [R R']; cbn [shaped node_read] in S, R, R';
    unfold sound; cbn [lines sort_of].
  - destruct ts as [|t [|u [|v [|w ts]]]]; try contradiction.
    + destruct R as [R N]. split; [constructor; exact R|intros _; exact N].
    + destruct R as [A [Z T]]. split; [constructor; assumption|intros _; cbn; congruence].
    + destruct R as [A [B [Z [N T]]]]. split; [constructor; assumption|intros _; cbn; congruence].
  - destruct R as [R N], S as [_ S]. split; [|intros _; exact N].
    apply inward_cons; [constructor; exact R|]. apply IH; assumption.
  - destruct R as [R N], S as [[So1 S1] [So2 S2]], R' as [R1 R2]. destruct (IHl S1 R1) as [L1 L2].
    destruct (IHr S2 R2) as [M1 M2]. split.
    + constructor; [exact L1|]. apply inward_cons; [constructor; exact R|exact M1].
    + intros _. apply headed_app; [apply lines_nonempty; assumption|auto].
  - destruct R as [R N], S as [[So1 S1] [So2 S2]], R' as [R1 R2]. destruct (IHl S1 R1) as [L1 L2].
    destruct (IHr S2 R2) as [M1 M2]. split.
    + constructor; [exact L1|]. apply inward_cons; [constructor; exact R|exact M1].
    + intros _. apply headed_app; [apply lines_nonempty; assumption|auto].
  - destruct R as [R N], S as [[So1 S1] [So2 S2]], R' as [R1 R2]. destruct (IHl S1 R1) as [L1 L2].
    destruct (IHr S2 R2) as [M1 M2]. split.
    + constructor; [exact L1|]. apply inward_cons; [constructor; exact R|exact M1].
    + intros _. apply headed_app; [apply lines_nonempty; assumption|auto].
  - destruct R as [R N], S as [[So1 S1] [So2 S2]], R' as [R1 R2]. split; [|intros _; exact N].
    apply inward_cons; [constructor; exact R|]. constructor; [apply IHp; assumption|apply IHb; assumption].
  - split; [|discriminate]. apply inward_round, commas_read, (AllI SoParam); assumption.
  - destruct S as [[So1 S1] S2], R' as [R1 R2]. split; [|discriminate].
    constructor; [apply IHa; assumption|]. apply inward_opt, (Opt SoDefault); assumption.
  - split; [|discriminate]. destruct S as [_ S]. apply inward_cons; [apply fixed; reflexivity|].
    apply IH; assumption.
  - destruct S as [[_ S1] [[_ S2] S3]], R' as [R1 [R2 R3]]. split; [|intros _; discriminate].
    apply inward_cons; [apply fixed; reflexivity|].
    assert (E : inline tLPAREN :: lines c ++ inline tRPAREN :: lines t ++ opt_list lines el
      = (inline tLPAREN :: lines c ++ [inline tRPAREN]) ++ lines t ++ opt_list lines el)
      by (cbn [app]; rewrite <- !app_assoc; reflexivity).
    rewrite E. constructor; [apply inward_round, IHc; assumption|].
    constructor; [apply IHt; assumption|]. apply inward_opt, (Opt SoElse); assumption.
  - split; [|discriminate]. destruct S as [_ S]. apply inward_cons; [apply fixed; reflexivity|].
    apply IH; assumption.
  - destruct S as [[_ S1] [[_ S2] [_ S3]]], R' as [R1 [R2 R3]]. split; [|intros _; discriminate].
    apply inward_cons; [apply fixed; reflexivity|].
    assert (E : inline tLPAREN :: lines v ++ inline tIN :: lines s ++ inline tRPAREN :: lines b
      = (inline tLPAREN :: (lines v ++ inline tIN :: lines s) ++ [inline tRPAREN]) ++ lines b)
      by (cbn [app]; repeat (rewrite <- ?app_assoc; cbn [app]); reflexivity).
    rewrite E. constructor; [apply inward_round|apply IHb; assumption].
    constructor; [apply IHv; assumption|]. apply inward_cons; [apply fixed; reflexivity|].
    apply IHs; assumption.
  - destruct S as [[_ S1] [_ S2]], R' as [R1 R2]. split; [|intros _; discriminate].
    apply inward_cons; [apply fixed; reflexivity|].
    assert (E : inline tLPAREN :: lines c ++ inline tRPAREN :: lines b
      = (inline tLPAREN :: lines c ++ [inline tRPAREN]) ++ lines b)
      by (cbn [app]; rewrite <- !app_assoc; reflexivity).
    rewrite E. constructor; [apply inward_round, IHc; assumption|apply IHb; assumption].
  - split; [|intros _; discriminate]. destruct S as [_ S]. apply inward_cons; [apply fixed; reflexivity|].
    apply IH; assumption.
  - split; [|intros _; discriminate].
    assert (F : Forall (fun l => nested l /\ calm l /\ headed l) (map lines es)).
    { pose proof (All SoExpr es IH S R') as F. clear - F S.
      induction F as [|x l [X H] F IH]; constructor.
      - split; [exact (inward_nested _ X)|]. split; [exact (inward_calm _ X)|]. apply H, S.
      - apply IH, S. }
    destruct (statements_read _ F) as [F1 F2]. apply inward_curly; assumption.
  - split; [|intros _; discriminate]. destruct S as [_ S]. apply inward_round, IH; assumption.
  - destruct S as [[So1 S1] [_ S2]], R' as [R1 R2]. destruct (IHf S1 R1) as [F1 F2].
    split; [constructor; [exact F1|apply IHa; assumption]|].
    intros _. apply headed_app; [apply lines_nonempty; assumption|auto].
  - split; [|discriminate]. apply inward_args, commas_read, (AllI SoArg); assumption.
  - destruct S as [S1 S2], R' as [R1 R2]. split; [|discriminate].
    constructor; apply inward_opt; [apply (Opt SoName)|apply (Opt SoExpr)]; assumption.
  - split; [|discriminate]. destruct S as [_ S]. constructor; [apply IH; assumption|].
    apply fixed; reflexivity.
Qed.

(** * Tidied trees *)

Lemma flat_same t t' : same_token t t' -> flat_token t -> t' = t.
Proof.
  intros H [F _]. apply (same_other t t' (or_intror H)). intros Q. rewrite Q in F. discriminate.
Qed.
Lemma leaf_same ts ts' : Forall2 same_token ts ts' -> leaf_read ts -> leaf_read ts'.
Proof.
  intros F R. destruct F as [|t t' ts ts' H F]; [exact R|].
  destruct F as [|u u' ts ts' H1 F].
  { destruct R as [R N]. rewrite (flat_same t t' H R). split; assumption. }
  destruct F as [|v v' ts ts' H2 F].
  { destruct R as [A [Z T]]. rewrite (same_other t t' (or_intror H)) by (rewrite A; discriminate).
    rewrite (same_other u u' (or_intror H1)) by (rewrite Z; discriminate). exact (conj A (conj Z T)). }
  destruct F as [|w w' ts ts' H3 F]; [|destruct R].
  destruct R as [A [B [Z [N T]]]]. rewrite (same_other t t' (or_intror H)) by (rewrite A; discriminate).
  rewrite (same_other v v' (or_intror H2)) by (rewrite Z; discriminate).
  split; [exact A|]. split; [rewrite (same_kind u u' (or_intror H1)); exact B|]. split; [exact Z|].
  split; [|exact T]. unfold same_token in H1. rewrite B in H1.
  change (kind_eqb STRING_CONTENT STRING_CONTENT) with true in H1. destruct H1 as [_ ->].
  apply without_cr_some, N.
Qed.
Lemma op_same op op' : same_token op op' -> flat_token op /\ t_kind op <> ELSE_KW ->
  flat_token op' /\ t_kind op' <> ELSE_KW.
Proof. intros H [F N]. rewrite (flat_same op op' H F). split; assumption. Qed.
Lemma op_restyled st eq op op' : restyled st eq op op' -> flat_token op /\ t_kind op <> ELSE_KW ->
  flat_token op' /\ t_kind op' <> ELSE_KW.
Proof.
  intros H F. assert (A : flat_token tARROW /\ t_kind tARROW <> ELSE_KW)
    by (split; [repeat split|discriminate]).
  assert (E : flat_token tEQUAL /\ t_kind tEQUAL <> ELSE_KW) by (split; [repeat split|discriminate]).
  pose proof (fun X => op_same op op' X F) as Q. clear F. unfold restyled in H.
  destruct st; try exact (Q H); destruct (t_kind op); try exact (Q H); try (subst op'; assumption);
    destruct eq; try exact (Q H); subst op'; assumption.
Qed.

Section Tidied.
Variable o : format_options.
Definition whole (e : expr) : Prop := shaped e /\ everywhere node_read e.
Definition Wh (e e' : expr) : Prop := whole e -> whole e' /\ sort_of e' = sort_of e.
Definition WhB (e e' : expr) : Prop := whole e -> sort_of e = SoExpr -> whole e' /\ sort_of e' = SoExpr.

Lemma Wh_all s l l' : Forall2 Wh l l' -> all_of (fun x => sort_of x = s /\ shaped x) l ->
  all_of (everywhere node_read) l ->
  all_of (fun x => sort_of x = s /\ shaped x) l' /\ all_of (everywhere node_read) l'.
Proof.
  induction 1 as [|x y l l' H F IH]; intros A B; [split; exact I|]. destruct A as [[A0 A1] A2], B as [B1 B2].
  destruct (H (conj A1 B1)) as [[H1 H2] H3]. destruct (IH A2 B2) as [I1 I2].
  split; (split; [try split; congruence|assumption]).
Qed.
Lemma Wh_opt s x x' : opt_rel Wh x x' -> opt_all (fun x => sort_of x = s /\ shaped x) x ->
  opt_all (everywhere node_read) x ->
  opt_all (fun x => sort_of x = s /\ shaped x) x' /\ opt_all (everywhere node_read) x'.
Proof.
  intros [|a b H] A B; [split; exact I|]. cbn [opt_all] in *. destruct A as [A0 A1].
  destruct (H (conj A1 B)) as [[H1 H2] H3]. split; [split; congruence|assumption].
Qed.

Lemma tidy_whole p e e' : tidy o p e e' -> Wh e e'.
Proof.
  revert p e e'. apply (tidy_ind' o (fun _ => Wh) (fun _ => Wh)
    (fun _ el el' => opt_all (fun x => sort_of x = SoElse /\ shaped x) el -> opt_all (everywhere node_read) el ->
       opt_all (fun x => sort_of x = SoElse /\ shaped x) el' /\ opt_all (everywhere node_read) el')
    (fun _ => WhB)); unfold WhB, Wh, whole; cbn [shaped everywhere node_read sort_of]; fold Wh.
  - intros p e _ W. auto.
  - intros p n k ts ts' F [S [R _]]. split; [|reflexivity]. split.
    + intros ->. inversion F; subst. contradiction.
    + split; [exact (leaf_same _ _ F R)|exact I].
  - intros p n op op' a a' T IH [[S0 S] [R R']]. destruct (IH (conj S R')) as [[I1 I2] I3].
    split; [|reflexivity]. split; [split; congruence|]. split; [exact (op_same _ _ T R)|exact I2].
  - intros p n l l' op op' r r' table T _ IHl IHr _ _ [[[S0 S1] [S2 S3]] [R [R1 R2]]].
    destruct (IHl (conj S1 R1)) as [[I1 I2] I3]. destruct (IHr (conj S3 R2)) as [[J1 J2] J3].
    split; [|reflexivity]. split; [split; split; congruence|].
    split; [exact (op_restyled _ _ _ _ T R)|split; assumption].
  - intros p n l l' op op' r r' T IHl IHr [[[S0 S1] [S2 S3]] [R [R1 R2]]].
    destruct (IHl (conj S1 R1)) as [[I1 I2] I3]. destruct (IHr (conj S3 R2)) as [[J1 J2] J3].
    split; [|reflexivity]. split; [split; split; congruence|].
    split; [exact (op_same _ _ T R)|split; assumption].
  - intros p n l l' op op' r r' T IHl IHr [[[S0 S1] [S2 S3]] [R [R1 R2]]].
    destruct (IHl (conj S1 R1)) as [[I1 I2] I3]. destruct (IHr (conj S3 R2)) as [[J1 J2] J3].
    split; [|reflexivity]. split; [split; split; congruence|].
    split; [exact (op_same _ _ T R)|split; assumption].
  - intros p n name name' ps ps' w b b' T IHl IHr _ [[[S0 S1] [S2 S3]] [R [R1 R2]]].
    destruct (IHl (conj S1 R1)) as [[I1 I2] I3]. destruct (IHr (conj S3 R2) S2) as [[J1 J2] J3].
    split; [|reflexivity]. split; [split; split; congruence|].
    split; [exact (op_same _ _ T R)|split; assumption].
  - intros p n l l' F [S [_ R]]. destruct (Wh_all SoParam _ _ F S R). split; [|reflexivity].
    split; [assumption|split; [exact I|assumption]].
  - intros p n a a' d d' IHa Od [[[S0 S1] S2] [_ [R1 R2]]]. destruct (IHa (conj S1 R1)) as [[I1 I2] I3].
    destruct (Wh_opt SoDefault _ _ Od S2 R2). split; [|reflexivity].
    split; [split; [split; congruence|assumption]|split; [exact I|split; assumption]].
  - intros p n v v' IH [[S0 S] [_ R]]. destruct (IH (conj S R)) as [[I1 I2] I3]. split; [|reflexivity].
    split; [split; congruence|split; [exact I|exact I2]].
  - intros p w e e' H _ W. exact (H W).
  - intros p n v v' s s' b b' IHv IHs IHb [[[S0 S1] [[S2 S3] [S4 S5]]] [_ [R1 [R2 R3]]]].
    destruct (IHv (conj S1 R1)) as [[I1 I2] I3]. destruct (IHs (conj S3 R2)) as [[J1 J2] J3].
    destruct (IHb (conj S5 R3) S4) as [[K1 K2] K3]. split; [|reflexivity].
    split; [split; [split; congruence|split; split; congruence]|].
    split; [exact I|split; [exact I2|split; assumption]].
  - intros p n v v' b b' IHv IHb [[[S0 S1] [S4 S5]] [_ [R1 R3]]].
    destruct (IHv (conj S1 R1)) as [[I1 I2] I3].
    destruct (IHb (conj S5 R3) S4) as [[K1 K2] K3]. split; [|reflexivity].
    split; [split; split; congruence|]. split; [exact I|split; assumption].
  - intros p n b b' IHb [[S4 S5] [_ R3]].
    destruct (IHb (conj S5 R3) S4) as [[K1 K2] K3]. split; [|reflexivity].
    split; [split; congruence|]. split; [exact I|assumption].
  - intros p n l l' F [S [_ R]]. split; [|reflexivity].
    assert (X : all_of (fun x => sort_of x = SoExpr /\ shaped x) l' /\ all_of (everywhere node_read) l').
    { apply (Wh_all SoExpr l l'); [|exact S|exact R]. clear - F. induction F; constructor; assumption. }
    destruct X as [X1 X2]. split; [exact X1|split; [exact I|exact X2]].
  - intros p n v v' IH [[S0 S] [_ R]]. destruct (IH (conj S R)) as [[I1 I2] I3]. split; [|reflexivity].
    split; [split; congruence|split; [exact I|exact I2]].
  - intros p n l l' r r' table _ IHl IHr [[[S0 S1] [S2 S3]] [R [R1 R2]]].
    destruct (IHl (conj S1 R1)) as [[I1 I2] I3]. destruct (IHr (conj S3 R2)) as [[J1 J2] J3].
    split; [|reflexivity]. split; [split; split; congruence|].
    split; [exact I|split; assumption].
  - intros p n k rc l l' F [S [_ R]]. destruct (Wh_all SoArg _ _ F S R). split; [|reflexivity].
    split; [assumption|split; [exact I|assumption]].
  - intros p n rc l _ W. auto.
  - intros p n nm nm' v v' sl On Ov [[S1 S2] [_ [R1 R2]]].
    destruct (Wh_opt SoName _ _ On S1 R1). destruct (Wh_opt SoExpr _ _ Ov S2 R2). split; [|reflexivity].
    split; [split; assumption|split; [exact I|split; assumption]].
  - intros p n v v' IH [[S0 S] [_ R]]. destruct (IH (conj S R)) as [[I1 I2] I3]. split; [|reflexivity].
    split; [split; congruence|split; [exact I|exact I2]].
  - intros w n c c' t t' el el' IHc IHt IHe _ [[[S0 S1] [[S2 S3] S4]] [_ [R1 [R2 R3]]]].
    destruct (IHc (conj S1 R1)) as [[I1 I2] I3]. destruct (IHt (conj S3 R2) S2) as [[J1 J2] J3].
    destruct (IHe S4 R3) as [K1 K2]. split; [|reflexivity].
    split; [split; [split; congruence|split; [split; congruence|exact K1]]|].
    split; [exact I|split; [exact I2|split; assumption]].
  - intros w _ _. split; exact I.
  - intros w n nl a a' _ IH [_ [S0 S]] [_ R]. destruct (IH (conj S R)) as [[I1 I2] I3].
    cbn [opt_all shaped everywhere node_read sort_of].
    split; [split; [reflexivity|split; congruence]|split; [exact I|exact I2]].
  - intros w n nl a a' _ IH [_ [S0 S]] [_ R]. destruct (IH (conj S R) S0) as [[I1 I2] I3].
    cbn [opt_all shaped everywhere node_read sort_of].
    split; [split; [reflexivity|split; congruence]|split; [exact I|exact I2]].
  - intros w b b' _ IH W So. destruct (IH W) as [I1 I2]. split; [exact I1|congruence].
  - intros b b' _ IH W So. destruct (IH W) as [[I1 I2] I3]. cbn [add_braces shaped everywhere all_of sort_of node_read].
    split; [|reflexivity]. split; [split; [split; congruence|exact I]|split; [exact I|split; [exact I2|exact I]]].
  - intros b b' _ IH W So. destruct (IH W) as [I1 I2]. split; [exact I1|congruence].
Qed.

Lemma program_sound l : all_of (fun e => sort_of e = SoExpr /\ shaped e) l -> all_of (everywhere node_read) l ->
  nested (program l) /\ calm (program l).
Proof.
  intros A B. apply statements_read. induction l as [|x l IH]; [constructor|].
  destruct A as [[A0 A1] A2], B as [B1 B2]. constructor; [|exact (IH A2 B2)].
  destruct (tree_sound x A1 B1) as [H1 H2]. split; [exact (inward_nested _ H1)|].
  split; [exact (inward_calm _ H1)|exact (H2 A0)].
Qed.
Lemma tidied_sound l l' : Forall2 (tidy o (p_stmt true)) l l' ->
  all_of (fun e => sort_of e = SoExpr /\ shaped e) l -> all_of (everywhere node_read) l ->
  nested (program l') /\ calm (program l').
Proof.
  intros F A B. assert (W : Forall2 Wh l l').
  { clear A B. induction F; constructor; [eapply tidy_whole; eassumption|assumption]. }
  destruct (Wh_all SoExpr _ _ W A B). apply program_sound; assumption.
Qed.
End Tidied.
