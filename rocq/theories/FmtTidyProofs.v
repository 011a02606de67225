(** Every layout of a node's document shows a tidied form of the node with its
    comments. *)
From Coq Require Import List Arith Bool NArith Lia.
From Verif Require Import Text SettingsModel SyntaxKind DirectiveModel FmtTree IrModel
  TableModel FmtModel FmtSpec FmtProofs FmtRunProofs FmtListProofs.
Import ListNotations.

Fixpoint esize (e : expr) : nat :=
  let lsize := fold_right (fun x n => esize x + n) 0 in
  S match e with
    | ELeaf _ _ _ => 0
    | EUnary _ _ a | EDefault _ a | EElse _ _ a | ERepeat _ a | EParen _ a
    | ENameClause _ a => esize a
    | EBinary _ a _ b | EExtract _ a _ b | ENamespace _ a _ b => esize a + esize b
    | EFunction _ _ a b | EWhile _ a b | ECall _ a b => esize a + esize b
    | EParams _ l | EBraced _ l | EArgs _ _ _ l => lsize l
    | EParam _ a d => esize a + match d with Some x => esize x | None => 0 end
    | EIf _ a b d => esize a + esize b + match d with Some x => esize x | None => 0 end
    | EFor _ a b c => esize a + esize b + esize c
    | EArg _ a b _ =>
      match a with Some x => esize x | None => 0 end +
      match b with Some x => esize x | None => 0 end
    end.

Lemma esize_In x l : In x l -> esize x <= fold_right (fun x n => esize x + n) 0 l.
Proof.
  induction l as [|y l IH]; intros I; [destruct I|]. cbn [fold_right].
  destruct I as [->|I]; [lia|]. specialize (IH I). lia.
Qed.

Lemma all_of_In {A} (P : A -> Prop) l x : all_of P l -> In x l -> P x.
Proof.
  induction l as [|y l IH]; intros H I; [destruct I|]. destruct H as [H1 H2].
  destruct I as [->|I]; auto.
Qed.

Lemma kind_eqb_false a b : a <> b -> kind_eqb a b = false.
Proof. apply kind_eqb_neq. Qed.

Section Tidying.
Variable o : format_options.
Variable pc : doc -> option (list piece).
Hypothesis Cp : cell_printer pc.

Definition agree (anc : list frame) (p : pos) : Prop :=
  q_eq p = can_normalize_to_equal anc /\ q_dir p = can_have_directive anc /\
  q_effect p = negb (value_position anc).

Definition wflag (b : braced) (m : mode) : bool :=
  match b, m with IfGroupBreaks, Flat => false | _, _ => true end.

Definition concl (p : pos) (fo : fopt) (m : mode) (e e' : expr) : Prop :=
  match e with
  | EElse _ _ _ =>
    tidy_else o (wflag (match fo_braced fo with Some b => b | None => IfGroupBreaks end) m)
      (Some e) (Some e')
  | EIf _ _ _ _ =>
    match fo_braced fo with Some _ => tidy_if o true e e' | None => tidy o p e e' end
  | _ => tidy o p e e'
  end.

Definition fits (anc : list frame) (p : pos) (fo : fopt) (e : expr) : Prop :=
  (fo_table fo = Some true -> q_table p = true) /\
  match e with
  | EElse _ _ a =>
    can_have_directive anc = false /\
    exists b, fo_braced fo = Some b /\ (is_if a = true -> b = Force)
  | EIf _ _ _ _ =>
    fo_braced fo = None \/ (fo_braced fo = Some Force /\ can_have_directive anc = false)
  | _ => True
  end.

Definition holds (e : expr) : Prop :=
  forall anc p fo m os, agree anc p -> fits anc p fo e ->
    glay m (fmt o pc anc fo e) os -> good (placed o p e) e (concl p fo m e) os.

(** * Bodies *)

Lemma in_braces_shows (P : Prop) m d os b C :
  (forall u, glay m d u -> good P b C u) ->
  glay m (in_braces d) os ->
  exists b', C b' /\ emits P os (etokens (add_braces b')) (ecomments b).
Proof.
  intros G H. unfold in_braces in H. split_lay H. split_lay H. split_lay H. lay_nil H.
  apply glay_block_indent in A0. destruct A0 as [a [u [c [Na [U [Nc ->]]]]]].
  destruct (G u U) as [b' [Cb Eb]]. exists b'. split; [exact Cb|].
  apply (token_emits P) in A, A1. rewrite app_nil_r.
  emitting; cbn [etokens add_braces map concat]; norm; reflexivity.
Qed.
Lemma if_broken_shows (P : Prop) m d os b C :
  (forall u, glay m d u -> good P b C u) ->
  glay m (in_braces_if_broken d) os ->
  exists b', C b' /\
    emits P os (etokens (match m with Flat => b' | Expanded => add_braces b' end)) (ecomments b).
Proof.
  intros G H. unfold in_braces_if_broken in H. split_lay H. split_lay H. split_lay H. lay_nil H.
  apply glay_soft_block_indent in A0. destruct A0 as [a [u [c [Na [U [Nc ->]]]]]].
  destruct (G u U) as [b' [Cb Eb]]. exists b'. split; [exact Cb|].
  rewrite app_nil_r. destruct m; cbn [glay] in A, A1.
  - subst. rewrite app_nil_r. cbn [app]. emitting; norm; reflexivity.
  - fold (token_doc tLCURLY) in A. fold (token_doc tRCURLY) in A1.
    apply (token_emits P Expanded) in A, A1.
    emitting; cbn [etokens add_braces map concat]; norm; reflexivity.
Qed.

(** A body printed plain, in braces, or in braces if the group breaks. *)
Lemma body_braced (P : Prop) w b os :
  is_braced b = true -> good P b (tidy o p_body b) os -> good P b (tidy_body o w b) os.
Proof.
  intros E [b' [A B]]. exists b'. split; [|exact B]. apply TB_braced; assumption.
Qed.
Lemma body_force (P : Prop) b m d os :
  is_braced b = false -> (forall u, glay m d u -> good P b (tidy o p_body b) u) ->
  glay m (in_braces d) os -> good P b (tidy_body o true b) os.
Proof.
  intros E G H. destruct (in_braces_shows P m d os b _ G H) as [b' [A B]].
  exists (add_braces b'). split; [|exact B]. apply TB_wrap; assumption.
Qed.
Lemma body_broken (P : Prop) b m d os :
  is_braced b = false -> (forall u, glay m d u -> good P b (tidy o p_body b) u) ->
  glay m (in_braces_if_broken d) os -> good P b (tidy_body o (wflag IfGroupBreaks m) b) os.
Proof.
  intros E G H. destruct (if_broken_shows P m d os b _ G H) as [b' [A B]].
  eexists. split; [|exact B]. destruct m; [apply TB_plain|apply TB_wrap]; assumption.
Qed.

(** * Operators *)

Lemma restyled_same st eq op op' :
  t_kind op <> EQUAL -> t_kind op <> ASSIGN -> same_token op op' -> restyled st eq op op'.
Proof.
  intros A B S. unfold restyled. destruct st; destruct (t_kind op); try exact S; congruence.
Qed.
Lemma restyle_restyled anc p op :
  q_eq p = can_normalize_to_equal anc ->
  restyled (o_assignment_style o) (q_eq p) op (norm_token (restyle o anc op)).
Proof.
  intros Q. unfold restyle.
  destruct (kind_eqb (t_kind op) EQUAL) eqn:E.
  - apply kind_eqb_eq in E. unfold restyled. rewrite E.
    destruct (o_assignment_style o); [reflexivity|..]; apply same_norm_token.
  - destruct (kind_eqb (t_kind op) ASSIGN) eqn:F.
    + apply kind_eqb_eq in F. unfold restyled. rewrite F, <- Q.
      destruct (o_assignment_style o); try apply same_norm_token.
      destruct (q_eq p); [reflexivity|apply same_norm_token].
    + apply kind_eqb_neq in E, F. apply restyled_same; [exact E|exact F|apply same_norm_token].
Qed.
Lemma classify_assignment k : classify k = Assignment -> assignment_op k = true.
Proof. destruct k; cbn; intros H; try discriminate; reflexivity. Qed.
Lemma classify_not_assignment k :
  classify k <> Assignment -> k <> EQUAL /\ k <> ASSIGN.
Proof. intros H. split; intros ->; apply H; reflexivity. Qed.

(** * Positions *)

Lemma agree_plain f anc :
  can_normalize_to_equal (f :: anc) = false -> can_have_directive (f :: anc) = false ->
  value_position (f :: anc) = true -> agree (f :: anc) p_plain.
Proof. intros A B C. unfold agree. rewrite A, B, C. repeat split. Qed.
Lemma agree_operand anc p op table :
  agree anc p -> agree (FBinary op :: anc) (p_operand (q_eq p) op table).
Proof.
  intros [A _]. repeat split. cbn [p_operand mkpos q_eq can_normalize_to_equal].
  unfold passes_eq. cbn [existsb]. rewrite A, orb_false_r, andb_comm, orb_assoc. reflexivity.
Qed.
Lemma agree_unary anc op : agree (FUnary op :: anc) (p_unary op).
Proof. repeat split. Qed.

Lemma fits0 anc p e : sort_of e <> SoElse -> fits anc p fo0 e.
Proof.
  intros N. split; [discriminate|]. destruct e; try exact I; [left; reflexivity|].
  exfalso. apply N. reflexivity.
Qed.
Lemma fits_table anc p e fo :
  sort_of e <> SoElse -> fo_braced fo = None -> (fo_table fo = Some true -> q_table p = true) ->
  fits anc p fo e.
Proof.
  intros N B T. split; [exact T|]. destruct e; try exact I; [left; exact B|].
  exfalso. apply N. reflexivity.
Qed.
Lemma concl_tidy p fo m e e' :
  sort_of e <> SoElse -> fo_braced fo = None -> concl p fo m e e' -> tidy o p e e'.
Proof.
  intros N B H. destruct e; try exact H.
  - unfold concl in H. rewrite B in H. exact H.
  - exfalso. apply N. reflexivity.
Qed.
Lemma tidy_concl p fo m e e' :
  sort_of e <> SoElse -> fo_braced fo = None -> tidy o p e e' -> concl p fo m e e'.
Proof.
  intros N B H. destruct e; try exact H.
  - unfold concl. rewrite B. exact H.
  - exfalso. apply N. reflexivity.
Qed.

(** A child with the default options, or others without braces. *)
Lemma child (P : Prop) e anc p fo m os :
  holds e -> sort_of e <> SoElse -> fo_braced fo = None ->
  (fo_table fo = Some true -> q_table p = true) -> agree anc p -> (P -> placed o p e) ->
  glay m (fmt o pc anc fo e) os ->
  exists e', tidy o p e e' /\ emits P os (etokens e') (ecomments e).
Proof.
  intros H N B T A I L.
  destruct (H anc p fo m os A (fits_table anc p e fo N B T) L) as [e' [C E]].
  exists e'. split; [exact (concl_tidy p fo m e e' N B C)|].
  exact (emits_weaken _ _ _ _ _ I E).
Qed.
Lemma child0 (P : Prop) e anc p m os :
  holds e -> sort_of e <> SoElse -> agree anc p -> (P -> placed o p e) ->
  glay m (fmt o pc anc fo0 e) os ->
  exists e', tidy o p e e' /\ emits P os (etokens e') (ecomments e).
Proof. intros H N A I. apply child; try assumption; [reflexivity|discriminate]. Qed.

Lemma suppressed_tidy anc p e : agree anc p -> suppressed o anc e = true -> tidy o p e e.
Proof. intros [_ [D _]] H. apply T_skip. exact (suppressed_asked o anc e p D H). Qed.

(** * The cases *)

Lemma tokens_same ts : Forall2 same_token ts (map norm_token ts).
Proof. induction ts; cbn [map]; constructor; [apply same_norm_token|assumption]. Qed.

Lemma case_leaf n k ts : holds (ELeaf n k ts).
Proof.
  intros anc p fo m os A _ H. cbn [fmt] in H.
  refine (node_soft_good o _ _ _ _ _ _ _ (suppressed_tidy anc p _ A) _ H).
  intros _ f F. exists (ELeaf n k (map norm_token ts)). split; [|exact (tokens_emit _ _ _ _ F)].
  apply T_leaf, tokens_same.
Qed.

Lemma case_unary n op a : holds a -> sort_of a = SoExpr -> holds (EUnary n op a).
Proof.
  intros IH S anc p fo m os A _ H. cbn [fmt] in H.
  refine (node_soft_good o _ _ _ _ _ _ _ (suppressed_tidy anc p _ A) _ H). clear H.
  intros _ f F. unfold rule_unary in F. split_lay F. split_lay F. split_lay F. lay_nil F.
  apply (token_emits (placed o p (EUnary n op a))) in A0.
  apply maybe_space_neutral in A1.
  assert (X : exists u v w, neutral u /\ neutral w /\ x1 = u ++ v ++ w /\
              glay m (fmt o pc (FUnary op :: anc) fo0 a) v).
  { match type of A2 with glay _ (if ?b then _ else _) _ => destruct b end.
    - apply glay_soft_block_indent in A2. destruct A2 as [u [v [w [U [V [W E]]]]]].
      exists u, v, w. auto.
    - exists [], x1, []. split; [apply neutral_nil|]. split; [apply neutral_nil|].
      split; [rewrite app_nil_r; reflexivity|exact A2]. }
  destruct X as [u [v [w [U [W [-> V]]]]]].
  destruct (child0 (placed o p (EUnary n op a)) a (FUnary op :: anc) (p_unary op) m v IH) as [a' [T E]].
  - congruence.
  - apply agree_unary.
  - intros Pl. exact Pl.
  - exact V.
  - exists (EUnary n (norm_token op) a'). split; [apply T_unary; [apply same_norm_token|exact T]|].
    rewrite app_nil_r. emitting; cbn [etokens kids]; norm; reflexivity.
Qed.

Lemma case_sticky (mk : notes -> expr -> token -> expr -> expr) :
  (mk = EExtract \/ mk = ENamespace) -> forall n l op r,
  holds l -> holds r -> sort_of l = SoExpr -> sort_of r = SoExpr -> holds (mk n l op r).
Proof.
  intros M n l op r IHl IHr Sl Sr anc p fo m os A _ H.
  assert (Sup := suppressed_tidy anc p (mk n l op r) A).
  assert (X : exists fr, agree (fr :: anc) p_plain /\
    fmt o pc anc fo (mk n l op r) =
    node_rule_soft o anc (mk n l op r)
      (rule_sticky (fmt o pc (fr :: anc) fo0 l) op (fmt o pc (fr :: anc) fo0 r))).
  { destruct M as [-> | ->]; [exists FExtract|exists FNamespace];
      (split; [apply agree_plain; reflexivity|reflexivity]). }
  destruct X as [fr [Ag X]]. rewrite X in H.
  assert (C : forall x, tidy o p (mk n l op r) x -> concl p fo m (mk n l op r) x)
    by (destruct M as [-> | ->]; auto).
  refine (good_weaken _ _ _ _ _ _ (fun i => i) C _).
  refine (node_soft_good o _ _ _ _ _ _ _ Sup _ H). clear H.
  intros _ f F. unfold rule_sticky in F. apply glay_group in F. destruct F as [m' F].
  split_lay F. split_lay F. split_lay F. lay_nil F.
  assert (Pl : placed o p (mk n l op r) -> placed o p_plain l /\ placed o p_plain r)
    by (destruct M as [-> | ->]; exact (fun i => i)).
  destruct (child0 (placed o p (mk n l op r)) l (fr :: anc) p_plain m' x IHl) as [l' [Tl El]];
    [congruence|exact Ag|intros i; apply Pl, i|exact A0|].
  destruct (child0 (placed o p (mk n l op r)) r (fr :: anc) p_plain m' x1 IHr) as [r' [Tr Er]];
    [congruence|exact Ag|intros i; apply Pl, i|exact A2|].
  apply (token_emits (placed o p (mk n l op r))) in A1.
  exists (mk n l' (norm_token op) r'). split.
  - destruct M as [-> | ->]; [apply T_extract|apply T_namespace]; try assumption;
      apply same_norm_token.
  - rewrite app_nil_r. emitting; destruct M as [-> | ->]; cbn [etokens kids]; norm; reflexivity.
Qed.

(** ** Binary expressions *)

Fixpoint spine (anc : list frame) (l : expr) {struct l} : doc * list tail_piece :=
  match l with
  | EBinary n' l' op' r' =>
    if is_chain_op op' then
      let '(dl, tail) := spine (FBinary op' :: anc) l' in
      (dl, tail ++ [ {| tp_op := op'; tp_right := r';
                        tp_doc := fmt o pc (FBinary op' :: anc) fo0 r';
                        tp_enclosing := Some n' |} ])
    else (fmt o pc anc fo0 l, [])
  | _ => (fmt o pc anc fo0 l, [])
  end.

Lemma chain_piece_shows (P : Prop) m pt os :
  glay m (chain_piece pt) os ->
  exists r, glay m (tp_doc pt) r /\
    (match tp_enclosing pt with Some n => n_lead n = [] /\ n_dang n = [] | None => True end) /\
    exists a b, emits P a [norm_token (tp_op pt)] [] /\
      emits P b [] (match tp_enclosing pt with Some n => map c_text (n_trail n) | None => [] end) /\
      os = a ++ r ++ b.
Proof.
  intros H. unfold chain_piece in H.
  split_lay H. split_lay H. split_lay H. split_lay H. split_lay H. split_lay H. lay_nil H.
  apply space_neutral in A0. apply (token_emits P) in A1. apply line_neutral in A2.
  exists x3. split; [exact A3|].
  assert (B : emits P x4 [] (match tp_enclosing pt with
                             | Some n => map c_text (n_trail n) | None => [] end)).
  { destruct (tp_enclosing pt); [exact (trailing_emits _ _ _ _ A4)|].
    cbn [glay] in A4. subst. apply emits_nil. }
  assert (E : x = [] /\
    (match tp_enclosing pt with Some n => n_lead n = [] /\ n_dang n = [] | None => True end)).
  { destruct (tp_enclosing pt) as [n|]; [|split; [exact A|exact I]].
    destruct (n_lead n) as [|? ?], (n_dang n) as [|? ?]; cbn [app glay] in A;
      try contradiction. subst. repeat split. }
  destruct E as [-> E]. split; [exact E|].
  exists (x0 ++ x1 ++ x2), x4. split; [|split; [exact B|]].
  - apply emits_neutral_l; [exact A0|]. apply emits_neutral_r; [exact A2|exact A1].
  - rewrite app_nil_r, <- !app_assoc. reflexivity.
Qed.

Lemma classify_chain op : is_chain_op op = true -> classify (t_kind op) = Chain.
Proof. unfold is_chain_op. destruct (classify (t_kind op)); congruence. Qed.

Lemma spine_shows N l :
  (forall x, esize x < N -> shaped x -> holds x) ->
  forall anc p dl tail m x y,
  esize l < N -> shaped l -> sort_of l = SoExpr -> agree anc p ->
  spine anc l = (dl, tail) -> glay m dl x -> glay m (cat (map chain_piece tail)) y ->
  exists l', tidy o p l l' /\ emits (placed o p l) (x ++ y) (etokens l') (ecomments l).
Proof.
  intros IH. induction l as [| | n l op r IHl IHr| | | | | | | | | | | | | | | | |] using expr_ind';
    intros anc p dl tail m x y Sz Sh So A Sp L1 L2;
    try (cbn [spine] in Sp; injection Sp as <- <-; cbn [map cat glay] in L2; subst y;
         rewrite app_nil_r;
         refine (child0 _ _ _ p m _ (IH _ Sz Sh) _ A (fun i => i) L1); cbn [sort_of] in *;
         congruence).
  cbn [spine] in Sp. destruct (is_chain_op op) eqn:EC.
  - destruct (spine (FBinary op :: anc) l) as [dl' tail'] eqn:ES. injection Sp as <- <-.
    rewrite map_app in L2. apply glay_cat_app in L2. destruct L2 as [y1 [y2 [L2 [L3 ->]]]].
    cbn [map] in L3. split_lay L3. lay_nil L3.
    destruct Sh as [[Sl Shl] [Sr Shr]]. cbn [esize] in Sz.
    destruct (IHl (FBinary op :: anc) (p_operand (q_eq p) op false) dl' tail' m x y1)
      as [l' [Tl El]]; try assumption; [lia|apply agree_operand, A|].
    apply (chain_piece_shows (placed o p (EBinary n l op r))) in A0.
    cbn [tp_doc tp_enclosing tp_op] in A0.
    destruct A0 as [u [U [[Ld Dg] [a [b [Ea [Eb ->]]]]]]].
    destruct (child0 (placed o p (EBinary n l op r)) r (FBinary op :: anc)
                (p_operand (q_eq p) op false) m u) as [r' [Tr Er]].
    + apply IH; [lia|exact Shr].
    + congruence.
    + apply agree_operand, A.
    + intros [_ Pr]. apply Pr. discriminate.
    + exact U.
    + exists (EBinary n l' (norm_token op) r'). split.
      * assert (NA : classify (t_kind op) <> Assignment)
          by (rewrite (classify_chain _ EC); discriminate).
        apply classify_not_assignment in NA. destruct NA as [N1 N2].
        apply (T_binary o p n l l' op (norm_token op) r r' false);
          [apply restyled_same; [assumption|assumption|apply same_norm_token]|discriminate|
           exact Tl|exact Tr].
      * apply (emits_weaken _ (placed o p (EBinary n l op r))) in El; [|intros [i _]; exact i].
        rewrite app_nil_r. rewrite app_assoc.
        cbn [ecomments]. unfold wrap_comments. cbn [notes_of]. rewrite Ld, Dg.
        eapply emits_eq.
        -- eapply emits_app; [exact El|]. eapply emits_app; [exact Ea|].
           eapply emits_app; [exact Er|exact Eb].
        -- cbn [etokens]. norm. reflexivity.
        -- cbn [map app]. norm. reflexivity.
  - injection Sp as <- <-. cbn [map cat glay] in L2. subst y. rewrite app_nil_r.
    refine (child0 _ _ _ p m _ (IH _ Sz Sh) _ A (fun i => i) L1). cbn [sort_of]. discriminate.
Qed.

Lemma fmt_chain anc fo n l op r :
  classify (t_kind op) = Chain ->
  fmt o pc anc fo (EBinary n l op r) =
  node_rule_soft o anc (EBinary n l op r)
    (let '(dl, tail) := spine (FBinary op :: anc) l in
     rule_chain o (fo_left fo) dl
       (tail ++ [ {| tp_op := op; tp_right := r;
                     tp_doc := fmt o pc (FBinary op :: anc) fo0 r; tp_enclosing := None |} ])).
Proof. intros E. cbn [fmt]. rewrite E. reflexivity. Qed.

Lemma case_binary n l op r :
  (forall x, esize x < esize (EBinary n l op r) -> shaped x -> holds x) ->
  shaped (EBinary n l op r) -> holds (EBinary n l op r).
Proof.
  intros IH Sh anc p fo m os A Ft H. pose proof Sh as [[Sl Shl] [Sr Shr]].
  set (P := placed o p (EBinary n l op r)).
  assert (Hl : holds l) by (apply IH; [cbn; lia|exact Shl]).
  assert (Hr : holds r) by (apply IH; [cbn; lia|exact Shr]).
  assert (Pl : P -> placed o (p_operand (q_eq p) op false) l) by (intros [i _]; exact i).
  assert (Pr : P -> placed o (p_operand (q_eq p) op false) r)
    by (intros [_ i]; apply i; discriminate).
  assert (CL : forall m x, glay m (fmt o pc (FBinary op :: anc) fo0 l) x ->
    exists l', tidy o (p_operand (q_eq p) op false) l l' /\ emits P x (etokens l') (ecomments l)).
  { intros m0 x X. refine (child0 P l _ _ m0 x Hl _ _ Pl X); [congruence|].
    apply agree_operand, A. }
  assert (CR : forall m x, glay m (fmt o pc (FBinary op :: anc) fo0 r) x ->
    exists r', tidy o (p_operand (q_eq p) op false) r r' /\ emits P x (etokens r') (ecomments r)).
  { intros m0 x X. refine (child0 P r _ _ m0 x Hr _ _ Pr X); [congruence|].
    apply agree_operand, A. }
  assert (Tn : classify (t_kind op) <> Assignment -> forall l' r',
    tidy o (p_operand (q_eq p) op false) l l' -> tidy o (p_operand (q_eq p) op false) r r' ->
    tidy o p (EBinary n l op r) (EBinary n l' (norm_token op) r')).
  { intros NA l' r' Tl Tr. apply classify_not_assignment in NA. destruct NA as [N1 N2].
    apply (T_binary o p n l l' op (norm_token op) r r' false);
      [apply restyled_same; [assumption|assumption|apply same_norm_token]|discriminate|
       exact Tl|exact Tr]. }
  change (concl p fo m (EBinary n l op r)) with (tidy o p (EBinary n l op r)).
  destruct (classify (t_kind op)) eqn:EC.
  - (* sticky *)
    cbn [fmt] in H. rewrite EC in H.
    refine (node_soft_good o _ _ _ _ _ _ _ (suppressed_tidy anc p _ A) _ H). clear H.
    intros _ f F. unfold rule_sticky in F. apply glay_group in F. destruct F as [m' F].
    split_lay F. split_lay F. split_lay F. lay_nil F.
    destruct (CL _ _ A0) as [l' [Tl El]]. destruct (CR _ _ A2) as [r' [Tr Er]].
    apply (token_emits P) in A1.
    exists (EBinary n l' (norm_token op) r'). split; [apply Tn; [discriminate|assumption..]|].
    rewrite app_nil_r. fold P. emitting; cbn [etokens kids]; norm; reflexivity.
  - (* assignment *)
    cbn [fmt] in H. rewrite EC in H.
    refine (node_soft_good o _ _ _ _ _ _ _ (suppressed_tidy anc p _ A) _ H). clear H.
    intros _ f F. unfold rule_assignment in F. apply glay_group in F. destruct F as [m' F].
    split_lay F. split_lay F. split_lay F. split_lay F. lay_nil F.
    destruct (CL _ _ A0) as [l' [Tl El]].
    apply space_neutral in A1. apply (token_emits P) in A2.
    assert (X : exists u v, neutral u /\ x2 = u ++ v /\
                glay m' (fmt o pc (FBinary op :: anc) (rhs_options o anc n op r) r) v).
    { destruct (persistent_assignment o op r).
      - apply glay_indent in A3. split_lay A3. do 2 eexists.
        split; [exact (line_neutral _ _ _ A4)|]. split; [reflexivity|exact A3].
      - split_lay A3. do 2 eexists.
        split; [exact (space_neutral _ _ A4)|]. split; [reflexivity|exact A3]. }
    destruct X as [u [v [U [-> V]]]].
    set (table := match fo_table (rhs_options o anc n op r) with Some b => b | None => false end).
    assert (TB : table = true -> assignment_op (t_kind op) = true /\ asked DTable p n).
    { intros T. split; [apply classify_assignment, EC|].
      unfold table, rhs_options in T.
      destruct (persistent_assignment o op r && is_binary r); [discriminate|].
      destruct r; try discriminate.
      destruct (has_directive DTable anc n) eqn:D; [|discriminate].
      destruct A as [_ [Qd _]]. apply (has_directive_asked DTable anc n p Qd), D. }
    destruct (child P r (FBinary op :: anc) (p_operand (q_eq p) op table)
                (rhs_options o anc n op r) m' v Hr) as [r' [Tr Er]].
    + congruence.
    + unfold rhs_options. destruct (persistent_assignment o op r && is_binary r); [reflexivity|].
      destruct r; try reflexivity. destruct (has_directive DTable anc n && _); reflexivity.
    + intros E. unfold table. rewrite E. reflexivity.
    + apply agree_operand, A.
    + intros [_ i]. apply i, TB.
    + exact V.
    + exists (EBinary n l' (norm_token (restyle o anc op)) r'). split.
      * apply (T_binary o p n l l' op _ r r' table);
          [apply restyle_restyled, A|exact TB|exact Tl|exact Tr].
      * rewrite app_nil_r. fold P. emitting; cbn [etokens kids]; norm; reflexivity.
  - (* chain *)
    rewrite (fmt_chain anc fo n l op r EC) in H.
    refine (node_soft_good o _ _ _ _ _ _ _ (suppressed_tidy anc p _ A) _ H). clear H.
    intros _ f F. destruct (spine (FBinary op :: anc) l) as [dl tail] eqn:ES.
    unfold rule_chain in F. apply glay_group in F. destruct F as [m' F].
    split_lay F.
    assert (G : glay m' (cat (map chain_piece (tail ++ [ {| tp_op := op; tp_right := r;
              tp_doc := fmt o pc (FBinary op :: anc) fo0 r; tp_enclosing := None |} ]))) y)
      by (destruct (fo_left fo); [exact F|exact (glay_indent _ _ _ F)]).
    clear F. rewrite map_app in G. apply glay_cat_app in G. destruct G as [y1 [y2 [G1 [G2 ->]]]].
    cbn [map] in G2. split_lay G2. lay_nil G2.
    destruct (spine_shows (esize (EBinary n l op r)) l IH (FBinary op :: anc)
                (p_operand (q_eq p) op false) dl tail m' x y1) as [l' [Tl El]];
      try assumption; [cbn; lia|apply agree_operand, A|].
    apply (emits_weaken _ P _ _ _ Pl) in El.
    apply (chain_piece_shows P) in A1.
    cbn [tp_doc tp_enclosing tp_op] in A1. destruct A1 as [u [U [_ [a [b [Ea [Eb ->]]]]]]].
    destruct (CR _ _ U) as [r' [Tr Er]].
    exists (EBinary n l' (norm_token op) r'). split; [apply Tn; [discriminate|assumption..]|].
    fold P. rewrite app_nil_r, app_assoc. eapply emits_eq.
    + eapply emits_app; [exact El|]. eapply emits_app; [exact Ea|].
      eapply emits_app; [exact Er|exact Eb].
    + cbn [etokens]. norm. reflexivity.
    + cbn [kids]. norm. reflexivity.
  - (* comparison *)
    cbn [fmt] in H. rewrite EC in H.
    refine (node_soft_good o _ _ _ _ _ _ _ (suppressed_tidy anc p _ A) _ H). clear H.
    intros _ f F. unfold rule_comparison in F. apply glay_group in F. destruct F as [m' F].
    split_lay F. split_lay F. split_lay F. split_lay F. lay_nil F.
    apply glay_indent in A3. split_lay A3. apply line_neutral in A4. apply space_neutral in A1.
    destruct (CL _ _ A0) as [l' [Tl El]]. destruct (CR _ _ A3) as [r' [Tr Er]].
    apply (token_emits P) in A2.
    exists (EBinary n l' (norm_token op) r'). split; [apply Tn; [discriminate|assumption..]|].
    rewrite app_nil_r. fold P. emitting; cbn [etokens kids]; norm; reflexivity.
  - (* no operator *)
    cbn [fmt] in H. rewrite EC in H.
    refine (node_soft_good o _ _ _ _ _ _ _ (suppressed_tidy anc p _ A) _ H).
    intros _ f [].
Qed.

(** ** Functions *)

Lemma agree_body f anc :
  can_normalize_to_equal (f :: anc) = true -> can_have_directive (f :: anc) = false ->
  value_position (f :: anc) = true -> agree (f :: anc) p_body.
Proof. intros A B C. unfold agree. rewrite A, B, C. repeat split. Qed.

Lemma case_function n name ps b :
  holds ps -> holds b -> sort_of ps = SoParams -> sort_of b = SoExpr ->
  holds (EFunction n name ps b).
Proof.
  intros IHp IHb Sp Sb anc p fo m os A _ H. cbn [fmt] in H.
  set (P := placed o p (EFunction n name ps b)).
  refine (node_soft_good o _ _ _ _ _ _ _ (suppressed_tidy anc p _ A) _ H). clear H.
  intros _ f F. unfold rule_function in F. apply glay_group in F. destruct F as [m' F].
  split_lay F. split_lay F. split_lay F. split_lay F. lay_nil F.
  apply (token_emits P) in A0. apply space_neutral in A2.
  assert (G : exists m'', glay m'' (fmt o pc (FFunction false :: anc) fo0 ps) x0).
  { destruct (fo_grouped fo); [|exists m'; exact A1]. exists Flat.
    exact (glay_remove_soft _ _ _ A1). }
  destruct G as [m'' G].
  destruct (child0 P ps (FFunction false :: anc) p_plain m'' x0 IHp) as [ps' [Tp Ep]];
    [congruence|apply agree_plain; reflexivity|intros [i _]; exact i|exact G|].
  assert (B : forall u, glay m' (fmt o pc (FFunction true :: anc) fo0 b) u ->
                good P b (tidy o p_body b) u).
  { intros u U. refine (child0 P b _ p_body m' u IHb _ _ _ U);
      [congruence|apply agree_body; reflexivity|intros [_ i]; exact i]. }
  assert (W : exists w b', tidy_body o w b b' /\ emits P x2 (etokens b') (ecomments b) /\
                (n_newline (notes_of b) = true -> w = true)).
  { unfold function_body in A3. destruct (is_braced b) eqn:Eb.
    - destruct (body_braced P true b x2 Eb (B x2 A3)) as [b' [T E]]. exists true, b'. auto.
    - destruct (n_newline (notes_of b)).
      + destruct (body_force P b m' _ x2 Eb B A3) as [b' [T E]]. exists true, b'. auto.
      + destruct (body_broken P b m' _ x2 Eb B A3) as [b' [T E]]. eexists _, b'.
        split; [exact T|]. split; [exact E|discriminate]. }
  destruct W as [w [b' [Tb [Eb Nb]]]].
  exists (EFunction n (norm_token name) ps' b'). split.
  - apply (T_function o p n name _ ps ps' w b b'); try assumption. apply same_norm_token.
  - rewrite app_nil_r. fold P. emitting; cbn [etokens kids]; norm; reflexivity.
Qed.

Lemma case_params n l :
  (forall x, In x l -> holds x) -> (forall x, In x l -> sort_of x = SoParam) ->
  holds (EParams n l).
Proof.
  intros IH So anc p fo m os A _ H. cbn [fmt] in H.
  set (P := placed o p (EParams n l)).
  refine (node_good o _ _ _ _ _ _ _ (suppressed_tidy anc p _ A) _ H). clear H.
  intros _ f F. fold P. cbn [notes_of kids].
  assert (O : forall x d, In (x, d) (map (fun x => (x, fmt o pc (FParamList :: anc) fo0 x)) l) ->
                ok P (tidy o p_plain) x d).
  { intros x d I. apply in_map_iff in I. destruct I as [y [E I]]. injection E as <- <-.
    intros m' u U. refine (child0 P y _ p_plain m' u (IH y I) _ _ _ U).
    - rewrite (So y I). discriminate.
    - apply agree_plain; reflexivity.
    - intros [_ q]. exact (all_of_In _ _ _ q I). }
  destruct (match l with [] => true | _ => false end) eqn:EL.
  - destruct l; [|discriminate]. cbn [map rule_params] in F. split_lay F. split_lay F. split_lay F. lay_nil F.
    apply (token_emits P) in A0, A2. apply (dangling_soft_emits P) in A1.
    exists (EParams n []). split; [apply T_params; constructor|].
    rewrite app_nil_r. emitting; cbn [etokens map concat commas app]; norm; reflexivity.
  - assert (Ne : l <> []) by (intros ->; discriminate).
    assert (F' : exists m', glay m' (cat [ token_doc tLPAREN;
        soft_block_indent (join_params true (map (fun x => (x, fmt o pc (FParamList :: anc) fo0 x)) l));
        token_doc tRPAREN ]) f).
    { destruct l; [discriminate|]. cbn [map rule_params] in F. apply glay_group in F. exact F. }
    clear F. destruct F' as [m' F]. split_lay F. split_lay F. split_lay F. lay_nil F.
    apply (token_emits P) in A0, A2. apply glay_soft_block_indent in A1.
    destruct A1 as [a [u [b [Na [U [Nb ->]]]]]].
    destruct (join_params_ok P (tidy o p_plain) m' _ _ _ O U) as [l' [Fl El]].
    assert (MF : map fst (map (fun x => (x, fmt o pc (FParamList :: anc) fo0 x)) l) = l)
      by (rewrite map_map; cbn [fst]; apply map_id).
    rewrite MF in Fl, El.
    exists (EParams n l'). split; [apply T_params, Fl|].
    refine (emits_perm P _ _ (concat (map ecomments l)) _ _ _).
    + intros [D _] c. rewrite (D Ne), app_nil_r. reflexivity.
    + rewrite app_nil_r. emitting; cbn [etokens]; norm; reflexivity.
Qed.

Lemma case_param n a d :
  holds a -> opt_all holds d -> sort_of a = SoExpr -> opt_all (fun x => sort_of x = SoDefault) d ->
  holds (EParam n a d).
Proof.
  intros IHa IHd Sa Sd anc p fo m os A _ H. cbn [fmt] in H.
  set (P := placed o p (EParam n a d)).
  refine (node_soft_good o _ _ _ _ _ _ _ (suppressed_tidy anc p _ A) _ H). clear H.
  intros _ f F. fold P.
  assert (Ag : agree (FParam :: anc) p_plain) by (apply agree_plain; reflexivity).
  destruct d as [d|]; cbn [rule_param] in F.
  - split_lay F. split_lay F. split_lay F. lay_nil F. apply space_neutral in A1.
    destruct (child0 P a (FParam :: anc) p_plain m x IHa) as [a' [Ta Ea]];
      [congruence|exact Ag|intros [i _]; exact i|exact A0|].
    cbn [opt_all] in IHd, Sd.
    destruct (child0 P d (FParam :: anc) p_plain m x1 IHd) as [d' [Td Ed]];
      [congruence|exact Ag|intros [_ i]; exact i|exact A2|].
    exists (EParam n a' (Some d')). split; [apply T_param; [exact Ta|constructor; exact Td]|].
    rewrite app_nil_r. emitting; cbn [etokens kids opt_list]; norm; reflexivity.
  - destruct (child0 P a (FParam :: anc) p_plain m f IHa) as [a' [Ta Ea]];
      [congruence|exact Ag|intros [i _]; exact i|exact F|].
    exists (EParam n a' None). split; [apply T_param; [exact Ta|constructor]|].
    emitting; cbn [etokens kids opt_list]; norm; reflexivity.
Qed.

Lemma case_default n v : holds v -> sort_of v = SoExpr -> holds (EDefault n v).
Proof.
  intros IH S anc p fo m os A _ H. cbn [fmt] in H.
  set (P := placed o p (EDefault n v)).
  refine (node_soft_good o _ _ _ _ _ _ _ (suppressed_tidy anc p _ A) _ H). clear H.
  intros _ f F. fold P. unfold rule_default in F.
  split_lay F. split_lay F. split_lay F. lay_nil F.
  apply (token_emits P) in A0. apply space_neutral in A1.
  destruct (child0 P v (FDefault :: anc) p_plain m x1 IH) as [v' [T E]];
    [congruence|apply agree_plain; reflexivity|intros i; exact i|exact A2|].
  exists (EDefault n v'). split; [apply T_default, T|].
  rewrite app_nil_r. emitting; cbn [etokens kids]; norm; reflexivity.
Qed.

Lemma case_name n v : holds v -> sort_of v = SoExpr -> holds (ENameClause n v).
Proof.
  intros IH S anc p fo m os A _ H. cbn [fmt] in H.
  set (P := placed o p (ENameClause n v)).
  refine (node_soft_good o _ _ _ _ _ _ _ (suppressed_tidy anc p _ A) _ H). clear H.
  intros _ f F. fold P. unfold rule_name_clause in F.
  split_lay F. split_lay F. split_lay F. lay_nil F.
  apply (token_emits P) in A2. apply space_neutral in A1.
  destruct (child0 P v (FNameClause :: anc) p_plain m x IH) as [v' [T E]];
    [congruence|apply agree_plain; reflexivity|intros i; exact i|exact A0|].
  exists (ENameClause n v'). split; [apply T_name, T|].
  rewrite app_nil_r. emitting; cbn [etokens kids]; norm; reflexivity.
Qed.

Lemma case_paren n b : holds b -> sort_of b = SoExpr -> holds (EParen n b).
Proof.
  intros IH S anc p fo m os A _ H. cbn [fmt] in H.
  set (P := placed o p (EParen n b)).
  refine (node_soft_good o _ _ _ _ _ _ _ (suppressed_tidy anc p _ A) _ H). clear H.
  intros _ f F. fold P. unfold rule_paren in F.
  split_lay F. split_lay F. split_lay F. lay_nil F.
  apply (token_emits P) in A0, A2.
  assert (X : exists u v w, neutral u /\ neutral w /\ x0 = u ++ v ++ w /\
              glay m (fmt o pc (FParen :: anc) fo0 b) v).
  { destruct (n_direct (notes_of b)).
    - apply glay_block_indent in A1. destruct A1 as [u [v [w [U [V [W E]]]]]].
      exists u, v, w. auto.
    - exists [], x0, []. split; [apply neutral_nil|]. split; [apply neutral_nil|].
      split; [rewrite app_nil_r; reflexivity|exact A1]. }
  destruct X as [u [v [w [U [W [-> V]]]]]].
  destruct (child0 P b (FParen :: anc) p_body m v IH) as [b' [T E]];
    [congruence|apply agree_body; reflexivity|intros i; exact i|exact V|].
  exists (EParen n b'). split; [apply T_paren, T|].
  rewrite app_nil_r. emitting; cbn [etokens kids]; norm; reflexivity.
Qed.

(** ** Statements *)

Lemma loop_body_shows (P : Prop) b m os fr anc :
  holds b -> sort_of b = SoExpr -> (P -> placed o p_body b) -> agree (fr :: anc) p_body ->
  glay m (loop_body b (fmt o pc (fr :: anc) fo0 b)) os ->
  exists b', tidy_body o true b b' /\ emits P os (etokens b') (ecomments b).
Proof.
  intros IH S Pl Ag H.
  assert (B : forall u, glay m (fmt o pc (fr :: anc) fo0 b) u -> good P b (tidy o p_body b) u).
  { intros u U. refine (child0 P b _ p_body m u IH _ Ag Pl U). congruence. }
  unfold loop_body in H. destruct (is_braced b) eqn:E.
  - exact (body_braced P true b os E (B os H)).
  - exact (body_force P b m _ os E B H).
Qed.

Lemma case_for n v s b :
  holds v -> holds s -> holds b ->
  sort_of v = SoExpr -> sort_of s = SoExpr -> sort_of b = SoExpr -> holds (EFor n v s b).
Proof.
  intros IHv IHs IHb Sv Ss Sb anc p fo m os A _ H. cbn [fmt] in H.
  set (P := placed o p (EFor n v s b)).
  refine (node_soft_good o _ _ _ _ _ _ _ (suppressed_tidy anc p _ A) _ H). clear H.
  intros _ f F. fold P. unfold rule_for in F. apply glay_group in F. destruct F as [m' F].
  split_lay F. split_lay F. split_lay F. split_lay F. split_lay F. split_lay F. split_lay F.
  split_lay F. split_lay F. split_lay F. split_lay F. lay_nil F.
  apply (token_emits P) in A0, A2, A5, A8.
  apply space_neutral in A1, A4, A6, A9.
  assert (Ag : agree (FFor false :: anc) p_plain) by (apply agree_plain; reflexivity).
  destruct (child0 P v (FFor false :: anc) p_plain m' x2 IHv) as [v' [Tv Ev]];
    [congruence|exact Ag|intros [i _]; exact i|exact A3|].
  destruct (child0 P s (FFor false :: anc) p_plain m' x6 IHs) as [s' [Ts Es]];
    [congruence|exact Ag|intros [_ [i _]]; exact i|exact A7|].
  destruct (loop_body_shows P b m' x9 (FFor true) anc IHb Sb) as [b' [Tb Eb]];
    [intros [_ [_ i]]; exact i|apply agree_body; reflexivity|exact A10|].
  exists (EFor n v' s' b'). split; [apply T_for; assumption|].
  rewrite app_nil_r. emitting; cbn [etokens kids]; norm; reflexivity.
Qed.

Lemma case_while n c b :
  holds c -> holds b -> sort_of c = SoExpr -> sort_of b = SoExpr -> holds (EWhile n c b).
Proof.
  intros IHc IHb Sc Sb anc p fo m os A _ H. cbn [fmt] in H.
  set (P := placed o p (EWhile n c b)).
  refine (node_soft_good o _ _ _ _ _ _ _ (suppressed_tidy anc p _ A) _ H). clear H.
  intros _ f F. fold P. unfold rule_while in F. apply glay_group in F. destruct F as [m' F].
  split_lay F. split_lay F. split_lay F. split_lay F. split_lay F. split_lay F. split_lay F.
  lay_nil F.
  apply (token_emits P) in A0, A2, A4. apply space_neutral in A1, A5.
  apply glay_group in A3. destruct A3 as [m'' A3]. apply glay_soft_block_indent in A3.
  destruct A3 as [u [w [z [Nu [W [Nz ->]]]]]].
  destruct (child0 P c (FWhile false :: anc) p_plain m'' w IHc) as [c' [Tc Ec]];
    [congruence|apply agree_plain; reflexivity|intros [i _]; exact i|exact W|].
  destruct (loop_body_shows P b m' x5 (FWhile true) anc IHb Sb) as [b' [Tb Eb]];
    [intros [_ i]; exact i|apply agree_body; reflexivity|exact A6|].
  exists (EWhile n c' b'). split; [apply T_while; assumption|].
  rewrite app_nil_r. emitting; cbn [etokens kids]; norm; reflexivity.
Qed.

Lemma case_repeat n b : holds b -> sort_of b = SoExpr -> holds (ERepeat n b).
Proof.
  intros IHb Sb anc p fo m os A _ H. cbn [fmt] in H.
  set (P := placed o p (ERepeat n b)).
  refine (node_soft_good o _ _ _ _ _ _ _ (suppressed_tidy anc p _ A) _ H). clear H.
  intros _ f F. fold P. unfold rule_repeat in F. apply glay_group in F. destruct F as [m' F].
  split_lay F. split_lay F. split_lay F. lay_nil F.
  apply (token_emits P) in A0. apply space_neutral in A1.
  destruct (loop_body_shows P b m' x1 FRepeat anc IHb Sb) as [b' [Tb Eb]];
    [intros i; exact i|apply agree_body; reflexivity|exact A2|].
  exists (ERepeat n b'). split; [apply T_repeat; assumption|].
  rewrite app_nil_r. emitting; cbn [etokens kids]; norm; reflexivity.
Qed.

Lemma not_suppressed anc e :
  can_have_directive anc = false ->
  match e with ECall _ _ _ => False | _ => True end -> suppressed o anc e = false.
Proof.
  intros D N. unfold suppressed, has_directive. rewrite D. destruct e; try reflexivity.
  contradiction.
Qed.

(** An if statement given how its bodies are braced. *)
Lemma if_shows n c t el anc b m f :
  (forall x, esize x < esize (EIf n c t el) -> shaped x -> holds x) ->
  shaped (EIf n c t el) ->
  (if_forced t el -> b = Force) ->
  glay m (rule_if b (fmt o pc (FIf SCond :: anc) fo0 c) t (fmt o pc (FIf SThen :: anc) fo0 t)
            match el with
            | Some x => Some (fmt o pc (FIf SElse :: anc) (fo_with_braced b) x)
            | None => None
            end) f ->
  exists w e', (b = Force -> w = true) /\ tidy_if o w (EIf n c t el) e' /\
    emits (placed o p_plain c /\ placed o p_body t /\ opt_all (placed o p_plain) el) f
      (etokens e') (kids (EIf n c t el)).
Proof.
  intros IH Sh Bf F. destruct Sh as [[Sc Shc] [[St Sht] Se]].
  set (P := placed o p_plain c /\ placed o p_body t /\ opt_all (placed o p_plain) el).
  unfold rule_if in F. apply glay_group in F. destruct F as [m' F].
  split_lay F. split_lay F. split_lay F. split_lay F. split_lay F. split_lay F. split_lay F.
  split_lay F. lay_nil F.
  apply (token_emits P) in A, A1, A3. apply space_neutral in A0, A4.
  apply glay_group in A2. destruct A2 as [m'' A2]. apply glay_soft_block_indent in A2.
  destruct A2 as [u [w [z [Nu [W [Nz ->]]]]]].
  destruct (child0 P c (FIf SCond :: anc) p_plain m'' w) as [c' [Tc Ec]];
    [apply IH; [cbn; lia|exact Shc]|congruence|apply agree_plain; reflexivity|
     intros [i _]; exact i|exact W|].
  set (wf := wflag b m').
  assert (T : exists t', tidy_body o wf t t' /\ emits P x5 (etokens t') (ecomments t)).
  { assert (B : forall u, glay m' (fmt o pc (FIf SThen :: anc) fo0 t) u ->
                  good P t (tidy o p_body t) u).
    { intros u0 U. refine (child0 P t _ p_body m' u0 _ _ _ _ U);
        [apply IH; [cbn; lia|exact Sht]|congruence|apply agree_body; reflexivity|
         intros [_ [i _]]; exact i]. }
    unfold if_body in A5. rewrite andb_false_r in A5. destruct (is_braced t) eqn:E.
    - exact (body_braced P wf t x5 E (B x5 A5)).
    - unfold wf. destruct b.
      + exact (body_force P t m' _ x5 E B A5).
      + exact (body_broken P t m' _ x5 E B A5). }
  destruct T as [t' [Tt Et]].
  assert (EL : exists el', tidy_else o wf el el' /\
                 emits P x6 (opt_list etokens el') (opt_list ecomments el)).
  { destruct el as [e|].
    - cbn [opt_all] in Se. destruct Se as [Se She]. split_lay A6. apply space_neutral in A2.
      destruct e as [| | | | | | | | | |ne nl a| | | | | | | | |]; try discriminate.
      assert (He : holds (EElse ne nl a)) by (apply IH; [cbn; lia|exact She]).
      assert (Fe : fits (FIf SElse :: anc) p_plain (fo_with_braced b) (EElse ne nl a)).
      { split; [discriminate|]. split; [reflexivity|]. exists b. split; [reflexivity|].
        intros Ia. apply Bf. right. right. right. exists ne, nl, a. auto. }
      destruct (He (FIf SElse :: anc) p_plain (fo_with_braced b) m' _
                  (agree_plain (FIf SElse) anc eq_refl eq_refl eq_refl) Fe A6) as [e' [Ce Ee]].
      exists (Some e'). split; [exact Ce|]. cbn [opt_list].
      apply emits_neutral_l; [exact A2|].
      refine (emits_weaken _ _ _ _ _ _ Ee). intros [_ [_ i]]. exact i.
    - cbn [glay] in A6. subst. exists None. split; [constructor|apply emits_nil]. }
  destruct EL as [el' [Te Ee]].
  exists wf, (EIf n c' t' el'). split; [intros ->; reflexivity|]. split.
  - apply TI_if; try assumption. intros N. unfold wf. rewrite (Bf N). reflexivity.
  - rewrite app_nil_r. emitting; cbn [etokens kids]; norm; reflexivity.
Qed.

Lemma compute_force anc t el :
  negb (value_position anc) = true \/ if_forced t el -> compute_braced anc t el = Force.
Proof.
  unfold compute_braced. intros [->|H]; [reflexivity|]. destruct (negb _); [reflexivity|].
  destruct H as [->|[->|[->|[ne [nl [a [-> H]]]]]]]; rewrite ?orb_true_r; try reflexivity.
  destruct (_ || _ || _); [reflexivity|].
  destruct H as [->|[->|[->| ->]]]; rewrite ?orb_true_r; reflexivity.
Qed.

Lemma case_if n c t el :
  (forall x, esize x < esize (EIf n c t el) -> shaped x -> holds x) ->
  shaped (EIf n c t el) -> holds (EIf n c t el).
Proof.
  intros IH Sh anc p fo m os A [_ Ft] H. cbn [fmt] in H.
  pose proof (compute_force anc t el) as C.
  destruct Ft as [Ft|[Ft Dr]].
  - rewrite Ft in H. unfold concl. rewrite Ft.
    refine (node_soft_good o _ _ _ _ _ _ _ (suppressed_tidy anc p _ A) _ H). clear H.
    intros _ f F.
    destruct (if_shows n c t el anc _ m f IH Sh (fun i => C (or_intror i)) F)
      as [w [e' [W [T E]]]].
    exists e'. split; [|exact E]. apply (T_if o p w); [exact T|].
    intros Q. apply W, C. left. destruct A as [_ [_ Q']]. congruence.
  - rewrite Ft in H. unfold concl. rewrite Ft.
    refine (node_soft_good o _ _ _ _ _ _ _ _ _ H).
    + intros S. rewrite (not_suppressed anc _ Dr) in S; [discriminate|exact I].
    + clear H. intros _ f F.
      destruct (if_shows n c t el anc Force m f IH Sh (fun _ => eq_refl) F) as [w [e' [W [T E]]]].
      exists e'. split; [|exact E]. rewrite (W eq_refl) in T. exact T.
Qed.

Lemma case_else n nl a : holds a -> sort_of a = SoExpr -> holds (EElse n nl a).
Proof.
  intros IH S anc p fo m os A [_ [Dr [b [Fb Fi]]]] H. cbn [fmt] in H. rewrite Fb in H.
  unfold concl. rewrite Fb.
  set (P := placed o p (EElse n nl a)).
  refine (node_soft_good o _ _ _ _ _ _ _ _ _ H).
  { intros Su. rewrite (not_suppressed anc _ Dr) in Su; [discriminate|exact I]. }
  clear H. intros _ f F. fold P. unfold rule_else in F.
  split_lay F. split_lay F. split_lay F. lay_nil F.
  apply (token_emits P) in A0. apply space_neutral in A1.
  assert (Ag : agree (FElse :: anc) p_body) by (apply agree_body; reflexivity).
  destruct (is_if a) eqn:Ei.
  - specialize (Fi eq_refl). subst b.
    destruct a; try discriminate.
    cbn [if_body is_braced is_if andb] in A2.
    destruct (IH (FElse :: anc) p_body (fo_with_braced Force) m x1 Ag) as [a' [Ca Ea]].
    + split; [discriminate|]. right. split; reflexivity.
    + exact A2.
    + exists (EElse n nl a'). split; [apply TE_if; [reflexivity|exact Ca]|].
      change (placed o p_body (EIf n0 a1 a2 e)) with P in Ea.
      rewrite app_nil_r. emitting; cbn [etokens kids]; norm; reflexivity.
  - assert (B : forall u, glay m (fmt o pc (FElse :: anc) fo0 a) u ->
                  good P a (tidy o p_body a) u).
    { intros u U. refine (child0 P a _ p_body m u IH _ Ag (fun i => i) U). congruence. }
    assert (T : exists a', tidy_body o (wflag b m) a a' /\ emits P x1 (etokens a') (ecomments a)).
    { unfold if_body in A2. rewrite Ei in A2. cbn [andb] in A2. destruct (is_braced a) eqn:E.
      - exact (body_braced P _ a x1 E (B x1 A2)).
      - destruct b.
        + exact (body_force P a m _ x1 E B A2).
        + exact (body_broken P a m _ x1 E B A2). }
    destruct T as [a' [Ta Ea]]. exists (EElse n nl a').
    split; [apply TE_body; assumption|].
    rewrite app_nil_r. emitting; cbn [etokens kids]; norm; reflexivity.
Qed.

(** ** Braces *)

Lemma agree_stmt anc b : agree (FBracedList (negb b) :: anc) (p_stmt b).
Proof. repeat split. cbn. rewrite negb_involutive. reflexivity. Qed.

Lemma all_stmts_In {A} (Q : bool -> A -> Prop) l x :
  all_stmts Q l -> In x l -> exists b, Q b x.
Proof.
  induction l as [|y l IH]; intros H I; [destruct I|]. destruct H as [H1 H2].
  destruct I as [->|I]; eauto.
Qed.
Lemma placed_stmt b b' e : placed o (p_stmt b) e -> placed o (p_stmt b') e.
Proof.
  destruct e; try exact (fun i => i).
Qed.

Lemma case_braced n l :
  (forall x, esize x < esize (EBraced n l) -> shaped x -> holds x) ->
  shaped (EBraced n l) -> holds (EBraced n l).
Proof.
  intros IH Sh anc p fo m os A _ H. cbn [fmt] in H.
  set (P := placed o p (EBraced n l)).
  assert (Hx : forall x, In x l -> holds x /\ sort_of x = SoExpr).
  { intros x I. pose proof (all_of_In _ _ _ Sh I) as [S1 S2]. split; [|exact S1].
    apply IH; [|exact S2]. pose proof (esize_In x l I). cbn. lia. }
  refine (node_good o _ _ _ _ _ _ _ (suppressed_tidy anc p _ A) _ H). clear H.
  intros _ f F. fold P. cbn [notes_of kids].
  assert (BN : forall d, glay m (in_braces d) f ->
    (forall m u, glay m d u -> exists l', stmts_rel (fun b => tidy o (p_stmt b)) l l' /\
       emits P u (concat (map etokens l')) (concat (map ecomments l))) ->
    l <> [] ->
    exists e', tidy o p (EBraced n l) e' /\
      emits P f (etokens e') (concat (map ecomments l) ++ map c_text (n_dang n))).
  { intros d D G Ne. unfold in_braces in D. split_lay D. split_lay D. split_lay D. lay_nil D.
    apply (token_emits P) in A0, A2. apply glay_block_indent in A1.
    destruct A1 as [a [u [b [Na [U [Nb ->]]]]]]. destruct (G _ _ U) as [l' [Fl El]].
    exists (EBraced n l'). split; [apply T_braced, Fl|].
    refine (emits_perm P _ _ (concat (map ecomments l)) _ _ _).
    + intros [Dg _] c. rewrite (Dg Ne). rewrite app_nil_r. reflexivity.
    + rewrite app_nil_r. emitting; cbn [etokens]; norm; reflexivity. }
  assert (LI : forall m u first, glay m (join_entries false first
      ((fix go (l : list expr) : list (expr * doc) :=
         match l with
         | [] => []
         | x :: r => (x, fmt o pc (FBracedList (is_last r) :: anc) fo0 x) :: go r
         end) l)) u ->
      exists l', stmts_rel (fun b => tidy o (p_stmt b)) l l' /\
        emits P u (concat (map etokens l')) (concat (map ecomments l))).
  { intros m' u first U.
    refine (join_stmts_ok P (fun b => tidy o (p_stmt b))
              (fun last x => fmt o pc (FBracedList last :: anc) fo0 x) false m' l first u _ U).
    intros b x I m0 u0 U0. destruct (Hx x I) as [Hh Hs].
    refine (child0 P x _ (p_stmt b) m0 u0 Hh _ (agree_stmt anc b) _ U0); [congruence|].
    intros [_ q]. destruct (all_stmts_In _ _ _ q I) as [b' Q]. exact (placed_stmt b' b x Q). }
  destruct (variant_of anc n l) as [| |inner|] eqn:EV; cbn [rule_braced] in F.
  - (* empty *)
    destruct l as [|e l].
    + destruct (n_dang n) eqn:ED; cbn [variant_of] in EV; rewrite ED in EV; try discriminate.
      split_lay F. split_lay F. lay_nil F. apply (token_emits P) in A0, A1.
      exists (EBraced n []). split; [apply T_braced; constructor|].
      rewrite app_nil_r. emitting; reflexivity.
    + exfalso. cbn [variant_of] in EV. destruct e; try discriminate.
      destruct es as [|e0 [|? ?]]; destruct l; try discriminate;
        destruct e0; try discriminate. destruct (_ && _); discriminate.
  - (* comments only *)
    destruct l as [|e l].
    + split_lay F. split_lay F. split_lay F. lay_nil F. apply (token_emits P) in A0, A2.
      apply (dangling_block_emits P) in A1.
      exists (EBraced n []). split; [apply T_braced; constructor|].
      rewrite app_nil_r. emitting; cbn [etokens map concat app]; norm; reflexivity.
    + exfalso. cbn [variant_of] in EV. destruct e; try discriminate.
      destruct es as [|e0 [|? ?]]; destruct l; try discriminate;
        destruct e0; try discriminate. destruct (_ && _); discriminate.
  - (* curly-curly *)
    destruct l as [|e l].
    { cbn [variant_of] in EV. destruct (n_dang n); discriminate. }
    cbn [variant_of] in EV. destruct e; try discriminate.
    destruct es as [|e0 [|? ?]]; destruct l; try discriminate; try (destruct e0; discriminate).
    destruct e0; try discriminate. destruct (kind_eqb k R_IDENTIFIER && _); [|discriminate].
    injection EV as <-.
    destruct (n_dang n0) eqn:ED; [|contradiction].
    apply glay_group in F. destruct F as [m' F].
    split_lay F. split_lay F. split_lay F. split_lay F. split_lay F. split_lay F. split_lay F.
    lay_nil F. apply (leading_emits P) in A0. apply (trailing_emits P) in A6.
    apply (token_emits P) in A1, A2, A4, A5. apply glay_soft_space_indent in A3.
    destruct A3 as [a [u [b [Na [U [Nb ->]]]]]].
    set (x9 := ELeaf n1 k ts) in *.
    destruct (child0 P x9 (FBracedList true :: FBracedList true :: anc) (p_stmt false) m' u
                (case_leaf n1 k ts)) as [y [Ty Ey]];
      [discriminate|apply (agree_stmt (FBracedList true :: anc) false)|intros _; exact I|exact U|].
    exists (EBraced n [EBraced n0 [y]]). split.
    + apply T_braced. constructor; [|constructor]. apply T_braced.
      constructor; [exact Ty|constructor].
    + refine (emits_perm P _ _ (map c_text (n_lead n0) ++ ecomments x9 ++ map c_text (n_trail n0))
                _ _ _).
      * intros [Dg _] c. rewrite Dg by discriminate.
        change (concat (map ecomments [EBraced n0 [x9]]))
          with (wrap_comments n0 (ecomments x9 ++ []) ++ []).
        unfold wrap_comments. rewrite ED. rewrite !tcount_app. cbn [map]. cbn. lia.
      * rewrite app_nil_r. emitting; cbn [etokens map concat]; norm; rewrite <- ?app_assoc; reflexivity.
  - (* not empty *)
    assert (Ne : l <> []).
    { intros ->. cbn [variant_of] in EV. destruct (n_dang n); discriminate. }
    refine (BN _ F _ Ne). intros m' u U. exact (LI m' u true U).
Qed.

(** ** Calls *)

Lemma case_call n f args :
  holds f -> holds args -> sort_of f = SoExpr -> sort_of args = SoArgs ->
  holds (ECall n f args).
Proof.
  intros IHf IHa Sf Sa anc p fo m os A [Ft _] H. cbn [fmt] in H.
  set (P := placed o p (ECall n f args)).
  refine (node_soft_good o _ _ _ _ _ _ _ (suppressed_tidy anc p _ A) _ H). clear H.
  intros _ u F. fold P. split_lay F.
  destruct (child0 P f (FCall :: anc) p_plain m x IHf) as [f' [Tf Ef]];
    [congruence|apply agree_plain; reflexivity|intros [i _]; exact i|exact A0|].
  set (fo' := call_options o anc n fo f args) in *.
  set (table := match fo_table fo' with Some b => b | None => false end).
  assert (TB : table = true -> table_asked o p n f).
  { unfold table, fo', call_options. cbn [fo_table fo_with_table]. intros T.
    apply andb_true_iff in T. destruct T as [_ T]. unfold table_asked.
    destruct (fo_table fo) as [[]|]; [left; apply Ft; reflexivity|discriminate|].
    apply orb_true_iff in T. destruct T as [T|T].
    - right. left. destruct A as [_ [Qd _]]. apply (has_directive_asked DTable anc n p Qd), T.
    - right. right. apply in_setting_listed, T. }
  destruct (child P args (FCall :: anc) (mkpos false false false table) fo' m y IHa)
    as [a' [Ta Ea]].
  - congruence.
  - reflexivity.
  - intros E. unfold table. rewrite E. reflexivity.
  - repeat split.
  - intros [_ i]. apply i, TB.
  - exact F.
  - exists (ECall n f' a'). split; [apply (T_call o p n f f' args a' table); assumption|].
    emitting; cbn [etokens kids]; norm; reflexivity.
Qed.

Lemma arg_fields_shows (P : Prop) anc n nm v sl m os :
  opt_all holds nm -> opt_all holds v ->
  opt_all (fun x => sort_of x = SoName) nm -> opt_all (fun x => sort_of x = SoExpr) v ->
  (P -> opt_all (placed o p_plain) nm /\ opt_all (placed o p_plain) v) ->
  glay m (argument_fields
            match nm with Some c => Some (fmt o pc (FArg :: anc) fo0 c) | None => None end
            match v with Some v => Some (fmt o pc (FArg :: anc) fo0 v) | None => None end) os ->
  exists e', tidy o p_item (EArg n nm v sl) e' /\
    (forall p, tidy o p (EArg n nm v sl) e') /\
    emits P os (etokens e') (kids (EArg n nm v sl)).
Proof.
  intros Hn Hv Sn Sv Pl H.
  assert (Ag : agree (FArg :: anc) p_plain) by (apply agree_plain; reflexivity).
  assert (G : exists nm' v', opt_rel (tidy o p_plain) nm nm' /\ opt_rel (tidy o p_plain) v v' /\
    emits P os (opt_list etokens nm' ++ opt_list etokens v')
      (opt_list ecomments nm ++ opt_list ecomments v)).
  { destruct nm as [c|], v as [v|]; cbn [argument_fields opt_all] in *.
    - split_lay H. split_lay H. split_lay H. lay_nil H. apply space_neutral in A0.
      destruct (child0 P c (FArg :: anc) p_plain m x Hn) as [c' [Tc Ec]];
        [congruence|exact Ag|intros i; apply Pl, i|exact A|].
      destruct (child0 P v (FArg :: anc) p_plain m x1 Hv) as [v' [Tv Ev]];
        [congruence|exact Ag|intros i; apply Pl, i|exact A1|].
      exists (Some c'), (Some v'). split; [constructor; exact Tc|]. split; [constructor; exact Tv|].
      cbn [opt_list]. rewrite app_nil_r. emitting; norm; reflexivity.
    - split_lay H. split_lay H. lay_nil H. apply space_neutral in A0.
      destruct (child0 P c (FArg :: anc) p_plain m x Hn) as [c' [Tc Ec]];
        [congruence|exact Ag|intros i; apply Pl, i|exact A|].
      exists (Some c'), None. split; [constructor; exact Tc|]. split; [constructor|].
      cbn [opt_list]. rewrite app_nil_r. emitting; norm; reflexivity.
    - destruct (child0 P v (FArg :: anc) p_plain m os Hv) as [v' [Tv Ev]];
        [congruence|exact Ag|intros i; apply Pl, i|exact H|].
      exists None, (Some v'). split; [constructor|]. split; [constructor; exact Tv|].
      cbn [opt_list]. emitting; norm; reflexivity.
    - cbn [glay] in H. subst. exists None, None. split; [constructor|]. split; [constructor|].
      apply emits_nil. }
  destruct G as [nm' [v' [Rn [Rv E]]]]. exists (EArg n nm' v' sl).
  split; [apply T_arg; assumption|]. split; [intros q; apply T_arg; assumption|]. exact E.
Qed.

Lemma case_arg n nm v sl :
  opt_all holds nm -> opt_all holds v ->
  opt_all (fun x => sort_of x = SoName) nm -> opt_all (fun x => sort_of x = SoExpr) v ->
  holds (EArg n nm v sl).
Proof.
  intros Hn Hv Sn Sv anc p fo m os A _ H. cbn [fmt] in H.
  set (P := placed o p (EArg n nm v sl)).
  refine (node_soft_good o _ _ _ _ _ _ _ (suppressed_tidy anc p _ A) _ H). clear H.
  intros _ f F. fold P.
  destruct (arg_fields_shows P anc n nm v sl m f Hn Hv Sn Sv) as [e' [_ [T E]]].
  - intros [_ i]. exact i.
  - exact F.
  - exists e'. split; [apply T|exact E].
Qed.

(** What the arguments' rule is given about one argument. *)
Definition arg_info (anc : list frame) (x : expr) : ainfo :=
  {| ai_node := x;
     ai_doc := fmt o pc (FArgList :: anc) fo0 x;
     ai_fields :=
       match x with
       | EArg _ nm v _ =>
         argument_fields
           match nm with
           | Some c => Some (fmt o pc (FArg :: FArgList :: anc) fo0 c) | None => None end
           match v with
           | Some v => Some (fmt o pc (FArg :: FArgList :: anc) fo0 v) | None => None end
       | _ => DNil
       end;
     ai_function :=
       match x with
       | EArg _ nm (Some v) _ =>
         match v with
         | EFunction _ _ _ _ =>
           Some (cat [ match nm with
                       | Some c => DCat (fmt o pc (FArg :: FArgList :: anc) fo0 c) DSpace
                       | None => DNil
                       end;
                       fmt o pc (FArg :: FArgList :: anc) fo_with_grouped v ])
         | _ => None
         end
       | _ => None
       end;
     ai_poor :=
       match x with
       | EArg _ _ (Some (EFunction _ _ ps _)) _ =>
         will_break (remove_soft
           (fmt o pc (FFunction false :: FArg :: FArgList :: anc) fo0 ps))
       | _ => false
       end |}.

Lemma fmt_args anc fo n k rc items :
  fmt o pc anc fo (EArgs n k rc items) =
  node_rule o anc (EArgs n k rc items)
    (rule_args o pc (EArgs n k rc items) n k rc
       (match fo_table fo with Some t => t | None => false end)
       (map (arg_info anc) items)) DNil.
Proof. reflexivity. Qed.

Lemma has_comments_false n :
  has_comments n = false -> n_lead n = [] /\ n_dang n = [] /\ n_trail n = [].
Proof.
  unfold has_comments. destruct (n_lead n), (n_dang n), (n_trail n); cbn; try discriminate.
  auto.
Qed.

Lemma in_with_seps {A} (l : list A) a : In a (with_seps l) -> In (fst a) l.
Proof. intros I. rewrite <- (with_seps_nodes l). apply in_map, I. Qed.

Lemma case_args n k rc items :
  (forall x, esize x < esize (EArgs n k rc items) -> shaped x -> holds x) ->
  shaped (EArgs n k rc items) -> holds (EArgs n k rc items).
Proof.
  intros IH Sh anc p fo m os A [Ft _] H. rewrite fmt_args in H.
  set (P := placed o p (EArgs n k rc items)).
  refine (node_good o _ _ _ _ _ _ _ (suppressed_tidy anc p _ A) _ H). clear H.
  intros _ f F. fold P. cbn [notes_of kids].
  set (infos := map (arg_info anc) items) in *.
  assert (Nodes : map ai_node infos = items).
  { unfold infos. rewrite map_map. cbn [arg_info ai_node]. apply map_id. }
  assert (Inf : forall i, In i infos -> exists x, In x items /\ i = arg_info anc x).
  { intros i I. apply in_map_iff in I. destruct I as [x [E I]]. exists x. auto. }
  clearbody infos.
  assert (It : forall x, In x items -> exists nx nm v sl, x = EArg nx nm v sl /\
    opt_all holds nm /\ opt_all holds v /\ opt_all (fun x => sort_of x = SoName) nm /\
    opt_all (fun x => sort_of x = SoExpr) v /\ holds x /\
    (P -> n_dang nx = [] /\ opt_all (placed o p_plain) nm /\ opt_all (placed o p_plain) v)).
  { intros x Ix. pose proof (all_of_In _ _ _ Sh Ix) as [S1 S2].
    pose proof (esize_In x items Ix) as Sz.
    destruct x as [| | | | | | | | | | | | | | | | | |nx nm v sl|]; try discriminate.
    exists nx, nm, v, sl. split; [reflexivity|]. destruct S2 as [S2 S3].
    cbn [esize] in Sz. assert (L : esize (EArg nx nm v sl) < esize (EArgs n k rc items))
      by (cbn [esize]; lia).
    split; [|split; [|split; [|split; [|split]]]].
    - destruct nm as [c|]; [|exact I]. destruct S2 as [_ S2]. apply IH; [|exact S2].
      cbn [esize] in L |- *. lia.
    - destruct v as [v|]; [|exact I]. destruct S3 as [_ S3]. apply IH; [|exact S3].
      cbn [esize] in L |- *. lia.
    - destruct nm; [apply S2|exact I].
    - destruct v; [apply S3|exact I].
    - apply IH; [exact L|]. split; assumption.
    - intros [_ [_ [_ q]]]. exact (all_of_In _ _ _ q Ix). }
  set (R := tidy o p_item).
  assert (Ok : Forall (arg_ok P R) (with_seps infos)).
  { apply Forall_forall. intros a Ia. apply in_with_seps in Ia.
    destruct (Inf _ Ia) as [x [Ix E]]. unfold arg_ok. rewrite E. cbn [arg_info ai_node ai_doc].
    destruct (It x Ix) as [nx [nm [v [sl [Ex [Hn [Hv [Sn [Sv [Hx Pl]]]]]]]]]].
    intros m' u U. refine (child0 P x _ p_item m' u Hx _ _ _ U).
    - rewrite Ex. discriminate.
    - repeat split.
    - intros q. rewrite Ex. exact (Pl q). }
  assert (La : infos <> [] -> group_last (map ai_node infos) = true ->
               last_ok P R (with_seps infos)).
  { intros _ G a d La E. rewrite Nodes in G. apply last_opt_with_seps in La.
    pose proof (last_opt_In _ _ La) as Ia. destruct (Inf _ Ia) as [x [Ix Ei]].
    assert (Lx : last_opt items = Some x).
    { rewrite <- Nodes, last_opt_map, La. cbn [opt_map]. rewrite Ei. reflexivity. }
    unfold group_last in G. rewrite Lx in G.
    destruct (It x Ix) as [nx [nm [v [sl [Ex [Hn [Hv [Sn [Sv [Hx Pl]]]]]]]]]]. subst x.
    apply andb_true_iff in G. destruct G as [G _]. apply andb_true_iff in G.
    destruct G as [G _]. apply negb_true_iff in G. apply has_comments_false in G.
    destruct G as [Gl [Gd Gt]].
    rewrite Ei in E |- *. cbn [arg_info ai_node ai_function] in E |- *.
    destruct v as [v|]; [|discriminate]. destruct v; try discriminate. injection E as <-.
    set (v := EFunction n0 name v1 v2) in *. intros m' u U.
    split_lay U. split_lay U. lay_nil U.
    assert (Ag : agree (FArg :: FArgList :: anc) p_plain) by (apply agree_plain; reflexivity).
    cbn [opt_all] in Hv, Sv.
    destruct (child P v (FArg :: FArgList :: anc) p_plain fo_with_grouped m' x0 Hv)
      as [v' [Tv Ev]];
      [congruence|reflexivity|discriminate|exact Ag|intros q; apply Pl, q|exact A1|].
    assert (C : exists nm', opt_rel (tidy o p_plain) nm nm' /\
                  emits P x (opt_list etokens nm') (opt_list ecomments nm)).
    { destruct nm as [c|].
      - split_lay A0. apply space_neutral in A0. cbn [opt_all] in Hn, Sn.
        destruct (child0 P c (FArg :: FArgList :: anc) p_plain m' x1 Hn) as [c' [Tc Ec]];
          [congruence|exact Ag|intros q; apply Pl, q|exact A2|].
        exists (Some c'). split; [constructor; exact Tc|]. cbn [opt_list].
        apply emits_neutral_r; assumption.
      - cbn [glay] in A0. subst. exists None. split; [constructor|apply emits_nil]. }
    destruct C as [nm' [Tn En]]. exists (EArg nx nm' (Some v') sl). split.
    - apply T_arg; [exact Tn|constructor; exact Tv].
    - rewrite ecomments_eq. unfold wrap_comments. cbn [notes_of]. rewrite Gl, Gd, Gt.
      rewrite app_nil_r. emitting; cbn [etokens kids opt_list map app]; norm; reflexivity. }
  assert (Dg : P -> infos <> [] -> n_dang n = []).
  { intros [D _] Ne. apply D. intros Ei. apply Ne. rewrite Ei in Nodes.
    destruct infos; [reflexivity|discriminate]. }
  assert (CL : glay m (rule_call_like o n k rc infos) f ->
    exists e', tidy o p (EArgs n k rc items) e' /\
      emits P f (etokens e') (concat (map ecomments items) ++ map c_text (n_dang n))).
  { intros G. destruct (rule_call_like_shows P R o m n k rc infos f Ok La Dg G) as [l' [Fl El]].
    rewrite Nodes in Fl, El. exists (EArgs n k rc l'). split; [apply T_args, Fl|exact El]. }
  unfold rule_args in F. destruct k; try exact (CL F).
  destruct (match fo_table fo with Some t => t | None => false end) eqn:ET; try exact (CL F).
  destruct (match infos with [] => true | _ => false end) eqn:EI.
  { destruct infos; [exact (CL F)|discriminate]. }
  assert (Ne : infos <> []) by (intros ->; discriminate).
  assert (Ni : items <> []).
  { intros E. apply Ne. rewrite E in Nodes. destruct infos; [reflexivity|discriminate]. }
  assert (QT : q_table p = true).
  { apply Ft. destruct (fo_table fo) as [[]|]; try discriminate. reflexivity. }
  assert (F' : glay m match build_table ainfo ai_node (cell_text pc) (with_seps infos) with
      | Some t => write_table ainfo ai_node own_lead own_trail ai_doc (token_doc tCOMMA)
                    (token_doc (l_token KCall)) (token_doc (r_token KCall)) t
      | None => verbatim (EArgs n KCall rc items)
      end f) by (destruct infos; [discriminate|exact F]).
  clear F. rename F' into F.
  destruct (build_table _ _ _ _) as [t|] eqn:EB.
  - destruct (write_table_shows P R pc m t infos f Cp Ok) with (3 := F) as [l' [Fl El]].
    + apply Forall_forall. intros a Ia. apply in_with_seps in Ia.
      destruct (Inf _ Ia) as [x [Ix E]]. rewrite E.
      destruct (It x Ix) as [nx [nm [v [sl [Ex [Hn [Hv [Sn [Sv [Hx Pl]]]]]]]]]].
      subst x. split.
      * intros m' u U. cbn [arg_info ai_fields ai_node] in U |- *.
        destruct (arg_fields_shows P (FArgList :: anc) nx nm v sl m' u Hn Hv Sn Sv)
          as [e' [T [_ Ee]]].
        -- intros q. apply Pl, q.
        -- exact U.
        -- exists e'. split; [exact T|exact Ee].
      * intros q. cbn [arg_info ai_node notes_of]. split; [apply Pl, q|].
        intros Nn. destruct nm; [discriminate|]. cbn [kids opt_list].
        destruct v as [v|]; [|reflexivity].
        destruct q as [_ [_ [q _]]]. exact (all_of_In _ _ _ (q QT) Ix).
    + exact EB.
    + rewrite Nodes in Fl, El. exists (EArgs n KCall rc l'). split; [apply T_args, Fl|].
      refine (emits_perm P _ _ (concat (map ecomments items)) _ _ El).
      intros q c. rewrite (Dg q Ne). rewrite app_nil_r. reflexivity.
  - exists (EArgs n KCall rc items). split; [apply T_args_table, QT|].
    apply (verbatim_emits P) in F. refine (emits_perm P _ _ _ _ _ F).
    intros [D [Q _]] c. destruct (Q QT Ni) as [Ql Qt]. rewrite (D Ni).
    rewrite ecomments_eq. unfold wrap_comments. cbn [notes_of kids]. rewrite Ql, Qt, (D Ni).
    rewrite !app_nil_r. reflexivity.
Qed.

(** * All nodes *)

Theorem fmt_holds e : shaped e -> holds e.
Proof.
  remember (esize e) as N eqn:EN. revert e EN.
  induction N as [N IHN] using (well_founded_induction lt_wf). intros e EN Sh.
  assert (IH : forall x, esize x < esize e -> shaped x -> holds x).
  { intros x L S. exact (IHN (esize x) ltac:(lia) x eq_refl S). }
  clear IHN EN N.
  destruct e.
  - apply case_leaf.
  - destruct Sh as [S1 S2]. apply case_unary; [apply IH; [cbn; lia|exact S2]|exact S1].
  - apply case_binary; assumption.
  - destruct Sh as [[S1 S2] [S3 S4]].
    apply (case_sticky EExtract (or_introl eq_refl)); try assumption; apply IH; cbn; try lia;
      assumption.
  - destruct Sh as [[S1 S2] [S3 S4]].
    apply (case_sticky ENamespace (or_intror eq_refl)); try assumption; apply IH; cbn; try lia;
      assumption.
  - destruct Sh as [[S1 S2] [S3 S4]].
    apply case_function; try assumption; apply IH; cbn; try lia; assumption.
  - apply case_params.
    + intros x I. pose proof (all_of_In _ _ _ Sh I) as [_ S].
      apply IH; [|exact S]. pose proof (esize_In x items I). cbn. lia.
    + intros x I. exact (proj1 (all_of_In _ _ _ Sh I)).
  - destruct Sh as [[S1 S2] S3].
    apply case_param; [apply IH; [cbn; lia|exact S2]| |exact S1|].
    + destruct dflt as [d|]; [|exact I]. destruct S3 as [_ S3]. apply IH; [cbn; lia|exact S3].
    + destruct dflt as [d|]; [|exact I]. exact (proj1 S3).
  - destruct Sh as [S1 S2]. apply case_default; [apply IH; [cbn; lia|exact S2]|exact S1].
  - apply case_if; assumption.
  - destruct Sh as [S1 S2]. apply case_else; [apply IH; [cbn; lia|exact S2]|exact S1].
  - destruct Sh as [[S1 S2] [[S3 S4] [S5 S6]]].
    apply case_for; try assumption; apply IH; cbn; try lia; assumption.
  - destruct Sh as [[S1 S2] [S3 S4]].
    apply case_while; try assumption; apply IH; cbn; try lia; assumption.
  - destruct Sh as [S1 S2]. apply case_repeat; [apply IH; [cbn; lia|exact S2]|exact S1].
  - apply case_braced; assumption.
  - destruct Sh as [S1 S2]. apply case_paren; [apply IH; [cbn; lia|exact S2]|exact S1].
  - destruct Sh as [[S1 S2] [S3 S4]].
    apply case_call; try assumption; apply IH; cbn; try lia; assumption.
  - apply case_args; assumption.
  - destruct Sh as [S1 S2]. apply case_arg.
    + destruct nm as [c|]; [|exact I]. destruct S1 as [_ S1]. apply IH; [cbn; lia|exact S1].
    + destruct v as [v|]; [|exact I]. destruct S2 as [_ S2].
      apply IH; [destruct nm; cbn; lia|exact S2].
    + destruct nm as [c|]; [|exact I]. exact (proj1 S1).
    + destruct v as [v|]; [|exact I]. exact (proj1 S2).
  - destruct Sh as [S1 S2]. apply case_name; [apply IH; [cbn; lia|exact S2]|exact S1].
Qed.
End Tidying.
