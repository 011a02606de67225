(** R's grammar builds from the tokens of a grammatical tree that tree. *)
From Coq Require Import List Arith Bool NArith Lia.
From Verif Require Import Text SettingsModel SyntaxKind FmtTree FmtSpec FmtLineSpec FmtLineRunProofs FmtLineProofs
  FmtLineFactProofs FmtFactProofs GrammarSpec.
Import ListNotations.

(** * Enough fuel *)

Definition ev {A : Type} (g : nat -> A) (r : A) : Prop :=
  exists n, forall f, n <= f -> g f = r.

Lemma ev_S {A} (g : nat -> A) r : ev (fun f => g (S f)) r -> ev g r.
Proof.
  intros [n H]. exists (S n). intros [|f] L; [lia|]. apply H. lia.
Qed.
Lemma ev_const {A} (r : A) : ev (fun _ => r) r.
Proof. exists 0. reflexivity. Qed.
Lemma ev_bind {A B C} (g : nat -> option (A * B)) x y (k : nat -> A -> B -> option C) r :
  ev g (Some (x, y)) -> ev (fun f => k f x y) r ->
  ev (fun f => match g f with Some (a, b) => k f a b | None => None end) r.
Proof.
  intros [n H] [m K]. exists (Nat.max n m). intros f L. rewrite H by lia. apply K. lia.
Qed.

(** * Tokens *)

Definition follow_level (k : kind) : option nat :=
  match opening k with Some _ => Some LEVEL_CALL | None => infix_level k end.

Lemma eat_inline k t r : t_kind t = k -> eat k (inline t :: r) = Some r.
Proof. intros E. unfold eat, next, inline. rewrite E, kind_eqb_refl. reflexivity. Qed.
Lemma next_is_inline k t r : next_is k (inline t :: r) = kind_eqb (t_kind t) k.
Proof. reflexivity. Qed.

(** What an expression can begin with. *)
Definition starter (k : kind) : bool :=
  match heading_of k with HOther => atomic k || kind_eqb k STRING_OPEN | _ => true end.
Definition separator (k : kind) : bool :=
  match k with COMMA | R_PAREN | R_BRACK | R_BRACK2 | R_CURLY | IN_KW | ELSE_KW | EQUAL => true
             | _ => false end.
Lemma starter_not k : starter k = true -> separator k = false.
Proof. destruct k; intros H; first [reflexivity|discriminate H]. Qed.
Lemma separator_follow k : separator k = true -> k <> EQUAL -> follow_level k = None.
Proof. destruct k; intros H N; first [reflexivity|discriminate H|contradiction]. Qed.
Lemma closing_separator c : separator (closing c) = true.
Proof. destruct c; reflexivity. Qed.
Lemma starter_neq k k' : starter k = true -> separator k' = true -> kind_eqb k k' = false.
Proof.
  intros A B. apply kind_eqb_neq. intros ->. rewrite (starter_not _ A) in B. discriminate.
Qed.

Lemma atomic_heading k : atomic k = true -> heading_of k = HOther.
Proof. destruct k; intros H; first [reflexivity|discriminate H]. Qed.
Lemma string_heading k : k = STRING_OPEN -> heading_of k = HOther.
Proof. intros ->. reflexivity. Qed.
Lemma prefix_heading k l : prefix_level k = Some l -> heading_of k = HPrefix l.
Proof. destruct k; intros H; try discriminate H; injection H as <-; reflexivity. Qed.
Lemma infix_opening k l : infix_level k = Some l -> opening k = None.
Proof. destruct k; intros H; first [reflexivity|discriminate H]. Qed.
Lemma infix_follow k l : infix_level k = Some l -> follow_level k = Some l.
Proof. intros H. unfold follow_level. rewrite (infix_opening k l H). exact H. Qed.
Lemma infix_not_else k l : infix_level k = Some l -> k <> ELSE_KW.
Proof. intros H ->. discriminate H. Qed.
Lemma infix_some_equal l : infix_level EQUAL = Some l -> l = LEVEL_EQUAL.
Proof. intros H. injection H as <-. reflexivity. Qed.
Lemma infix_bound k l : infix_level k = Some l -> l < LEVEL_TOP.
Proof. destruct k; intros H; try discriminate H; injection H as <-; unfold LEVEL_TOP, LEVEL_HELP,
  LEVEL_EQUAL, LEVEL_ARROW, LEVEL_COMPARE, LEVEL_CALL, LEVEL_NAMESPACE; lia. Qed.
Lemma follow_bound k l : follow_level k = Some l -> l < LEVEL_TOP.
Proof.
  unfold follow_level. destruct (opening k); [|apply infix_bound].
  intros H. injection H as <-. unfold LEVEL_CALL, LEVEL_TOP. lia.
Qed.
Lemma opening_l c : opening (t_kind (l_token c)) = Some c.
Proof. destruct c; reflexivity. Qed.
Lemma closing_r c : t_kind (r_token c) = closing c.
Proof. reflexivity. Qed.
Lemma left_least_top e : left_least e <= LEVEL_TOP.
Proof. induction e using expr_ind'; cbn [left_least]; lia. Qed.
Lemma left_least_pos e : sort_of e = SoExpr -> forall eq, shaped e -> grammatical eq e ->
  LEVEL_HELP <= left_least e.
Proof.
  assert (Pos : forall op l, infix_level (t_kind op) = Some l -> 1 <= level_of op).
  { intros op l H. unfold level_of. rewrite H. destruct (t_kind op); try discriminate H;
      injection H as <-; unfold LEVEL_HELP, LEVEL_EQUAL, LEVEL_ARROW, LEVEL_COMPARE, LEVEL_CALL,
        LEVEL_NAMESPACE; lia. }
  unfold LEVEL_HELP.
  induction e using expr_ind'; intros So eq Sh G; cbn [left_least]; try (unfold LEVEL_TOP; lia);
    try discriminate; cbn [shaped grammatical] in Sh, G.
  - destruct Sh as [[S1 S2] _], G as [[l [G1 _]] [_ [G2 _]]].
    specialize (IHe1 S1 _ S2 G2). specialize (Pos _ _ G1). lia.
  - destruct Sh as [[S1 S2] _], G as [[l [G1 _]] [_ [G2 _]]].
    specialize (IHe1 S1 _ S2 G2). specialize (Pos _ _ G1). lia.
  - destruct Sh as [[S1 S2] _], G as [[l [G1 _]] [_ [G2 _]]].
    specialize (IHe1 S1 _ S2 G2). specialize (Pos _ _ G1). lia.
  - destruct Sh as [[S1 S2] _], G as [G2 _]. specialize (IHe1 S1 _ S2 G2). unfold LEVEL_CALL. lia.
Qed.

(** * The first token *)

Lemma first_token e : sort_of e = SoExpr -> forall eq, shaped e -> grammatical eq e ->
  exists t r, lines e = inline t :: r /\ starter (t_kind t) = true.
Proof.
  induction e using expr_ind'; intros So eq Sh G; try discriminate; cbn [lines shaped grammatical] in *.
  - destruct G as [[t [-> A]]|[a [m [z [-> [A _]]]]]].
    + exists t, []. split; [reflexivity|]. unfold starter. rewrite (atomic_heading _ A), A. reflexivity.
    + eexists a, _. split; [reflexivity|]. unfold starter. rewrite A. reflexivity.
  - eexists _, _. split; [reflexivity|]. destruct G as [[l [G _]] _].
    unfold starter. rewrite (prefix_heading _ _ G). reflexivity.
  - destruct Sh as [[S1 S2] _], G as [_ [_ [G2 _]]].
    destruct (IHe1 S1 _ S2 G2) as [t [r [-> K]]]. eexists t, _. split; [reflexivity|exact K].
  - destruct Sh as [[S1 S2] _], G as [_ [_ [G2 _]]].
    destruct (IHe1 S1 _ S2 G2) as [t [r [-> K]]]. eexists t, _. split; [reflexivity|exact K].
  - destruct Sh as [[S1 S2] _], G as [_ [_ [G2 _]]].
    destruct (IHe1 S1 _ S2 G2) as [t [r [-> K]]]. eexists t, _. split; [reflexivity|exact K].
  - eexists _, _. split; [reflexivity|]. unfold starter. destruct G as [[-> | ->] _]; reflexivity.
  - eexists _, _. split; reflexivity.
  - eexists _, _. split; reflexivity.
  - eexists _, _. split; reflexivity.
  - eexists _, _. split; reflexivity.
  - eexists _, _. split; reflexivity.
  - eexists _, _. split; reflexivity.
  - destruct Sh as [[S1 S2] _], G as [G2 _].
    destruct (IHe1 S1 _ S2 G2) as [t [r [-> K]]]. eexists t, _. split; [reflexivity|exact K].
Qed.

(** * Atoms *)

Lemma string_rest_ok m z rest :
  t_kind z = STRING_CLOSE -> all_of (fun t => t_kind t <> STRING_CLOSE) m ->
  string_rest (map inline (m ++ [z]) ++ rest) = Some (m ++ [z], rest).
Proof.
  intros Z. induction m as [|t m IH]; cbn [all_of app map string_rest].
  - intros _. unfold inline. rewrite Z. rewrite kind_eqb_refl. reflexivity.
  - intros [N A]. unfold inline at 1. apply kind_eqb_neq in N. rewrite N, (IH A). reflexivity.
Qed.
Lemma atom_ok ts rest :
  atom_tokens ts -> atom (map inline ts ++ rest) = Some (Atom ts, rest).
Proof.
  intros [[t [-> A]]|[a [m [z [-> [A [Z M]]]]]]].
  - unfold atom. cbn [map app next inline]. rewrite A. reflexivity.
  - unfold atom. cbn [map app]. unfold next, inline at 1. rewrite A. cbn [atomic].
    rewrite kind_eqb_refl, (string_rest_ok m z rest Z M). reflexivity.
Qed.
Lemma start_atom f eq ts rest :
  atom_tokens ts -> start (S f) eq (map inline ts ++ rest) = Some (Atom ts, rest).
Proof.
  intros A. rewrite <- (atom_ok ts rest A). destruct A as [[t [-> A]]|[a [m [z [-> [A [Z M]]]]]]].
  - cbn [map app start]. unfold next, inline at 1. rewrite (atomic_heading _ A). reflexivity.
  - cbn [map app start]. unfold next, inline at 1. rewrite (string_heading _ A). reflexivity.
Qed.

(** * Sizes *)

Definition osize (f : expr -> nat) (x : option expr) : nat :=
  match x with Some e => f e | None => 0 end.
Fixpoint esize (e : expr) : nat :=
  S match e with
    | ELeaf _ _ _ => 0
    | EUnary _ _ a | EDefault _ a | EElse _ _ a | ERepeat _ a | EParen _ a
    | ENameClause _ a => esize a
    | EBinary _ l _ r | EExtract _ l _ r | ENamespace _ l _ r => esize l + esize r
    | EFunction _ _ a b | EWhile _ a b | ECall _ a b => esize a + esize b
    | EParams _ l | EBraced _ l | EArgs _ _ _ l => list_sum (map esize l)
    | EParam _ a d => esize a + osize esize d
    | EIf _ c t el => esize c + esize t + osize esize el
    | EFor _ v s b => esize v + esize s + esize b
    | EArg _ nm v _ => osize esize nm + osize esize v
    end.

(** * Expressions *)

Definition fits (e : expr) (rest : input) : Prop :=
  match next rest with
  | None => True
  | Some (t, _) =>
    (forall l, follow_level (t_kind t) = Some l -> l < right_least e) /\
    (t_kind t = ELSE_KW -> wants_else e = false)
  end.

(** Nothing of the rest belongs to an operand that binds at least so tightly. *)
Definition stops (eq : bool) (least : nat) (rest : input) : Prop :=
  match next rest with
  | None => True
  | Some (t, _) =>
    forall l, follow_level (t_kind t) = Some l -> l < least \/ (t_kind t = EQUAL /\ eq = false)
  end.
Lemma stop eq least x rest f :
  stops eq least rest -> operators (S f) eq least x rest = Some (x, rest).
Proof.
  unfold stops. cbn [operators]. destruct (next rest) as [[t r]|]; [|reflexivity].
  unfold follow_level. destruct (opening (t_kind t)) as [c|] eqn:Eo.
  - intros H. destruct (H _ eq_refl) as [L|[E _]]; [|rewrite E in Eo; discriminate].
    destruct (Nat.leb_spec least LEVEL_CALL); [lia|reflexivity].
  - destruct (infix_level (t_kind t)) as [l|]; [|reflexivity]. intros H.
    destruct (H _ eq_refl) as [L|[E ->]].
    + destruct (Nat.leb_spec least l); [lia|reflexivity].
    + rewrite E. change (kind_eqb EQUAL EQUAL) with true. rewrite andb_false_r. reflexivity.
Qed.
Lemma stop_ev eq least x rest :
  stops eq least rest -> ev (fun f => operators f eq least x rest) (Some (x, rest)).
Proof. intros H. apply ev_S. exists 0. intros f _. apply stop, H. Qed.
Lemma fits_stops e rest eq least :
  fits e rest -> right_least e <= least -> stops eq least rest.
Proof.
  unfold fits, stops. destruct (next rest) as [[t r]|]; [|auto].
  intros [H _] L l E. left. specialize (H l E). lia.
Qed.
Lemma fits_mono e e' rest :
  fits e rest -> right_least e <= right_least e' -> (wants_else e = false -> wants_else e' = false) ->
  fits e' rest.
Proof.
  unfold fits. destruct (next rest) as [[t r]|]; [|auto]. intros [H K] L W. split.
  - intros l E. specialize (H l E). lia.
  - auto.
Qed.

Definition Parsed (e : expr) : Prop :=
  forall eq least rest res, sort_of e = SoExpr -> shaped e -> grammatical eq e ->
  least <= left_least e -> fits e rest ->
  ev (fun f => operators f eq least (term_of e) rest) res ->
  ev (fun f => expression f eq least (lines e ++ rest)) res.

(** As an operand that ends where the rest begins. *)
Lemma parsed_whole e eq least rest :
  Parsed e -> sort_of e = SoExpr -> shaped e -> grammatical eq e -> least <= left_least e ->
  fits e rest -> stops eq least rest ->
  ev (fun f => expression f eq least (lines e ++ rest)) (Some (term_of e, rest)).
Proof. intros P So Sh G L F S. apply P; auto. apply stop_ev, S. Qed.

Lemma parsed_start e eq least rest res :
  ev (fun f => start f eq (lines e ++ rest)) (Some (term_of e, rest)) ->
  ev (fun f => operators f eq least (term_of e) rest) res ->
  ev (fun f => expression f eq least (lines e ++ rest)) res.
Proof.
  intros A B. apply ev_S. cbn [expression].
  exact (ev_bind _ _ _ (fun f x r => operators f eq least x r) _ A B).
Qed.

(** Before a token that no operand takes. *)
Lemma fits_closed e t r : separator (t_kind t) = true -> t_kind t <> EQUAL ->
  (t_kind t = ELSE_KW -> wants_else e = false) -> fits e (inline t :: r).
Proof.
  intros S N W. unfold fits. cbn [next inline]. split; [|exact W].
  intros l E. rewrite (separator_follow _ S N) in E. discriminate.
Qed.
Lemma stops_closed eq least t r : separator (t_kind t) = true -> t_kind t <> EQUAL ->
  stops eq least (inline t :: r).
Proof.
  intros S N. unfold stops. cbn [next inline].
  intros l E. rewrite (separator_follow _ S N) in E. discriminate.
Qed.

Lemma parsed_closed e eq least t r :
  Parsed e -> sort_of e = SoExpr -> shaped e -> grammatical eq e -> least <= left_least e ->
  separator (t_kind t) = true -> t_kind t <> EQUAL -> (t_kind t = ELSE_KW -> wants_else e = false) ->
  ev (fun f => expression f eq least (lines e ++ inline t :: r)) (Some (term_of e, inline t :: r)).
Proof.
  intros. apply parsed_whole; auto; [apply fits_closed|apply stops_closed]; assumption.
Qed.

(** * Lists *)

Definition Sound (eq : bool) (e : expr) : Prop :=
  Parsed e /\ sort_of e = SoExpr /\ shaped e /\ grammatical eq e.

Lemma left_help eq e : Sound eq e -> LEVEL_HELP <= left_least e.
Proof. intros [_ [So [Sh G]]]. exact (left_least_pos e So eq Sh G). Qed.

(** Braces or the file end there. *)
Definition block_end (rest : input) : Prop := rest = [] \/ exists r, rest = inline tRCURLY :: r.

Lemma fits_none e rest : next rest = None -> fits e rest.
Proof. intros N. unfold fits. rewrite N. exact I. Qed.
Lemma stops_none eq least rest : next rest = None -> stops eq least rest.
Proof. intros N. unfold stops. rewrite N. exact I. Qed.

Lemma block_ok es rest : Forall (Sound true) es -> block_end rest ->
  match es with
  | [] => True
  | e :: r => forall b,
    ev (fun f => block f (flag b (lines e) ++ List.concat (map (flag true) (map lines r)) ++ rest))
      (Some (map term_of es, rest))
  end.
Proof.
  intros F E. induction F as [|e es Se F IH]; [exact I|]. intros b.
  pose proof (left_help _ _ Se) as LH. destruct Se as [P [So [Sh G]]].
  destruct (first_token e So _ Sh G) as [t [r [El St]]].
  assert (Ef : flag b (lines e) = (t, b || false) :: r) by (rewrite El; reflexivity).
  set (tail := List.concat (map (flag true) (map lines es)) ++ rest).
  assert (X : ev (fun f => expression f true LEVEL_HELP (lines e ++ tail)) (Some (term_of e, tail))).
  { destruct es as [|e2 es].
    - cbn [map List.concat app] in tail. subst tail. destruct E as [-> | [r' ->]].
      + apply parsed_whole; auto; exact I.
      + apply parsed_closed; auto; discriminate.
    - inversion F as [|? ? Se2 F2]; subst. destruct Se2 as [P2 [So2 [Sh2 G2]]].
      destruct (first_token e2 So2 _ Sh2 G2) as [t2 [r2 [El2 St2]]].
      assert (N : next tail = None).
      { subst tail. cbn [map List.concat]. rewrite El2. reflexivity. }
      apply parsed_whole; auto; [apply fits_none|apply stops_none]; exact N. }
  apply ev_S. rewrite Ef. cbn [app block].
  rewrite (starter_neq _ R_CURLY St eq_refl).
  change ((t, false) :: r ++ tail) with ((inline t :: r) ++ tail). rewrite <- El.
  refine (ev_bind _ _ _ (fun f (x : term) (r : input) => match r with
     | [] => Some ([x], r)
     | (t', mark) :: _ =>
       if kind_eqb (t_kind t') R_CURLY then Some ([x], r)
       else if mark then match block f r with Some (l, r) => Some (x :: l, r) | None => None end
       else None end) _ X _).
  destruct es as [|e2 es].
  - cbn [map List.concat app] in tail. subst tail. destruct E as [-> | [r' ->]].
    + apply ev_const.
    + unfold inline at 1. change (kind_eqb (t_kind tRCURLY) R_CURLY) with true. cbn iota. apply ev_const.
  - inversion F as [|? ? Se2 F2]; subst. destruct Se2 as [P2 [So2 [Sh2 G2]]].
    destruct (first_token e2 So2 _ Sh2 G2) as [t2 [r2 [El2 St2]]].
    specialize (IH true). unfold tail. cbn [map List.concat].
    rewrite <- app_assoc.
    set (tail' := flag true (lines e2) ++ concat (map (flag true) (map lines es)) ++ rest) in *.
    assert (Et : exists q, tail' = (t2, true) :: q).
    { unfold tail'. rewrite El2. eexists. reflexivity. }
    destruct Et as [q Et]. clearbody tail'. subst tail'.
    rewrite (starter_neq _ R_CURLY St2 eq_refl).
    refine (ev_bind _ _ _ (fun f l r => Some (term_of e :: l, r)) _ IH _). apply ev_const.
Qed.

Lemma block_statements es rest : Forall (Sound true) es -> block_end rest ->
  ev (fun f => block f (statements (map lines es) ++ rest)) (Some (map term_of es, rest)).
Proof.
  intros F E. pose proof (block_ok es rest F E) as B. destruct es as [|e es].
  - apply ev_S. destruct E as [-> | [r ->]]; cbn [map statements app block].
    + apply ev_const.
    + unfold inline at 1. change (kind_eqb (t_kind tRCURLY) R_CURLY) with true. cbn iota. apply ev_const.
  - specialize (B false). rewrite flag_false in B. cbn [map statements]. rewrite <- app_assoc. exact B.
Qed.

Section Items.
Variables (params : bool) (close : kind) (tm : expr -> option term * option term).
Hypothesis Sep : separator close = true.
Hypothesis Neq : close <> COMMA.

Definition ItemOk (x : expr) : Prop := forall t r, t_kind t = COMMA \/ t_kind t = close ->
  ev (fun f => item f params close (lines x ++ inline t :: r)) (Some (tm x, inline t :: r)).

Lemma more_items_ok l t rest : l <> [] -> Forall ItemOk l -> t_kind t = close ->
  ev (fun f => more_items f params close (listed_by_commas (map lines l) ++ inline t :: rest))
    (Some (map tm l, rest)).
Proof.
  intros N F T. induction F as [|x l Hx F IH]; [contradiction|].
  apply ev_S. cbn [more_items]. destruct l as [|y l].
  - cbn [map listed_by_commas].
    eapply ev_bind; [exact (Hx t rest (or_intror T))|].
    rewrite next_is_inline, T.
    assert (E : kind_eqb close COMMA = false) by (apply kind_eqb_neq; exact Neq). rewrite E.
    rewrite (eat_inline _ _ _ T). apply ev_const.
  - cbn [map listed_by_commas] in *. rewrite <- app_assoc. cbn [app].
    eapply ev_bind; [exact (Hx tCOMMA _ (or_introl eq_refl))|].
    rewrite next_is_inline. change (kind_eqb (t_kind tCOMMA) COMMA) with true. cbn iota.
    rewrite (eat_inline COMMA tCOMMA _ eq_refl).
    refine (ev_bind _ _ _ (fun f l r => Some (tm x :: l, r)) _ (IH ltac:(discriminate)) _).
    apply ev_const.
Qed.

Lemma items_ok l t rest : Forall ItemOk l -> t_kind t = close ->
  (l <> [] -> next_is close (listed_by_commas (map lines l) ++ inline t :: rest) = false) ->
  ev (fun f => items f params close (listed_by_commas (map lines l) ++ inline t :: rest))
    (Some (map tm l, rest)).
Proof.
  intros F T N. apply ev_S. cbn [items]. destruct l as [|x l].
  - cbn [map listed_by_commas app]. rewrite next_is_inline, T, kind_eqb_refl.
    rewrite (eat_inline _ _ _ T). apply ev_const.
  - rewrite N by discriminate. apply more_items_ok; auto. discriminate.
Qed.
End Items.

Definition param_term (x : expr) : option term * option term :=
  match x with
  | EParam _ a d =>
    (Some (term_of a), match d with Some (EDefault _ v) => Some (term_of v) | _ => None end)
  | _ => (None, None)
  end.
Definition arg_term (x : expr) : option term * option term :=
  match x with
  | EArg _ nm v _ =>
    (match nm with Some (ENameClause _ a) => Some (term_of a) | _ => None end,
     match v with Some a => Some (term_of a) | None => None end)
  | _ => (None, None)
  end.

Lemma param_ok n a d :
  is_leaf a -> grammatical false a ->
  (forall x, d = Some x -> exists n v, x = EDefault n v /\ Sound false v) ->
  ItemOk true R_PAREN param_term (EParam n a d).
Proof.
  intros La Ga Hd t r T. destruct a; try contradiction. cbn [grammatical] in Ga.
  apply ev_S. cbn [item lines]. rewrite <- app_assoc. rewrite (atom_ok _ _ Ga).
  destruct d as [d|].
  - destruct (Hd _ eq_refl) as [n' [v [-> Sv]]]. cbn [opt_list lines].
    pose proof (left_help _ _ Sv) as LH. destruct Sv as [P [So [Sh G]]].
    cbn [app]. rewrite next_is_inline. change (kind_eqb (t_kind tEQUAL) EQUAL) with true.
    rewrite (eat_inline EQUAL tEQUAL _ eq_refl). cbn iota.
    refine (ev_bind _ _ _ (fun f v r => Some ((Some (Atom ts), Some v), r)) _ _ _); [|apply ev_const].
    apply parsed_closed; auto; destruct T as [-> | ->]; (reflexivity || discriminate).
  - cbn [opt_list app]. rewrite next_is_inline.
    assert (E : kind_eqb (t_kind t) EQUAL = false) by (destruct T as [-> | ->]; reflexivity).
    rewrite E. apply ev_const.
Qed.

Lemma arg_ok k n nm v sl :
  (forall x, nm = Some x -> exists n a, x = ENameClause n a /\ is_leaf a /\ Sound false a) ->
  (forall x, v = Some x -> Sound false x) ->
  ItemOk false (closing k) arg_term (EArg n nm v sl).
Proof.
  intros Hn Hv t r T.
  assert (Ts : separator (t_kind t) = true /\ t_kind t <> EQUAL /\ t_kind t <> ELSE_KW /\
               kind_eqb (t_kind t) COMMA || kind_eqb (t_kind t) (closing k) = true).
  { destruct T as [-> | ->]; destruct k; (split; [reflexivity|split; [discriminate|split;
      [discriminate|reflexivity]]]). }
  destruct Ts as [Ts [Te [Tl Tc]]].
  apply ev_S. cbn [item lines]. rewrite <- app_assoc.
  destruct nm as [nm|].
  - destruct (Hn _ eq_refl) as [n' [a [-> [La Sa]]]]. cbn [opt_list lines]. rewrite <- app_assoc.
    cbn [app]. pose proof (left_help _ _ Sa) as LH. pose proof Sa as [P [So [Sh G]]].
    destruct (first_token a So _ Sh G) as [t1 [r1 [El St]]].
    assert (N : forall q, next_is COMMA (lines a ++ q) = false /\ next_is (closing k) (lines a ++ q) = false).
    { intros q. rewrite El. cbn [app]. rewrite !next_is_inline.
      split; apply starter_neq; auto. apply closing_separator. }
    destruct (N (inline tEQUAL :: opt_list lines v ++ inline t :: r)) as [N1 N2].
    rewrite N1, N2. cbn [orb].
    assert (X : ev (fun f => expression f false LEVEL_HELP
                 (lines a ++ inline tEQUAL :: opt_list lines v ++ inline t :: r))
               (Some (term_of a, inline tEQUAL :: opt_list lines v ++ inline t :: r))).
    { apply parsed_whole; auto.
      - unfold fits. cbn [next inline]. split; [|discriminate]. intros l E.
        injection E as <-. destruct a; try contradiction. cbn [right_least].
        unfold LEVEL_EQUAL, LEVEL_TOP. lia.
      - unfold stops. cbn [next inline]. intros l E. right. split; reflexivity. }
    destruct a as [na ka ts| | | | | | | | | | | | | | | | | | |]; try contradiction.
    cbn [lines term_of] in *.
    refine (ev_bind _ _ _ (fun f (x : term) (r : input) => if next_is EQUAL r then
        match x with
        | Atom _ =>
          match eat EQUAL r with
          | Some r => if next_is COMMA r || next_is (closing k) r then Some ((Some x, None), r)
            else match expression f false LEVEL_HELP r with
                 | Some (v, r) => Some ((Some x, Some v), r) | None => None end
          | None => None
          end
        | _ => None
        end else Some ((None, Some x), r)) _ X _).
    rewrite next_is_inline. change (kind_eqb (t_kind tEQUAL) EQUAL) with true.
    rewrite (eat_inline EQUAL tEQUAL _ eq_refl). cbn iota.
    destruct v as [v|]; cbn [opt_list app].
    + pose proof (Hv _ eq_refl) as Sv. pose proof (left_help _ _ Sv) as LHv.
      destruct Sv as [Pv [Sov [Shv Gv]]].
      destruct (first_token v Sov _ Shv Gv) as [t2 [r2 [El2 St2]]].
      assert (M : next_is COMMA (lines v ++ inline t :: r) = false /\
                  next_is (closing k) (lines v ++ inline t :: r) = false).
      { rewrite El2. cbn [app]. rewrite !next_is_inline.
        split; apply starter_neq; auto. apply closing_separator. }
      destruct M as [M1 M2]. rewrite M1, M2. cbn [orb].
      refine (ev_bind _ _ _ (fun f v r => Some ((Some (Atom ts), Some v), r)) _ _ _); [|apply ev_const].
      apply parsed_closed; auto. contradiction.
    + rewrite !next_is_inline. rewrite Tc. apply ev_const.
  - destruct v as [v|]; cbn [opt_list app].
    + pose proof (Hv _ eq_refl) as Sv. pose proof (left_help _ _ Sv) as LHv.
      destruct Sv as [Pv [Sov [Shv Gv]]].
      destruct (first_token v Sov _ Shv Gv) as [t2 [r2 [El2 St2]]].
      assert (M : next_is COMMA (lines v ++ inline t :: r) = false /\
                  next_is (closing k) (lines v ++ inline t :: r) = false).
      { rewrite El2. cbn [app]. rewrite !next_is_inline.
        split; apply starter_neq; auto. apply closing_separator. }
      destruct M as [M1 M2]. rewrite M1, M2. cbn [orb].
      eapply ev_bind.
      * apply parsed_closed; auto. contradiction.
      * rewrite next_is_inline.
        assert (E : kind_eqb (t_kind t) EQUAL = false) by (apply kind_eqb_neq; exact Te).
        rewrite E. apply ev_const.
    + rewrite !next_is_inline. rewrite Tc. apply ev_const.
Qed.

(** * The main induction *)

Lemma in_sum (x : expr) l : In x l -> esize x <= list_sum (map esize l).
Proof.
  induction l as [|y l IH]; [contradiction|]. cbn [map list_sum fold_right].
  intros [-> | H]; [unfold list_sum; lia|]. specialize (IH H). unfold list_sum in *. lia.
Qed.
Lemma esize_pos e : 1 <= esize e.
Proof. destruct e; cbn [esize]; lia. Qed.
Lemma all_of_in {A} (Q : A -> Prop) l x : all_of Q l -> In x l -> Q x.
Proof. intros H. apply all_of_Forall in H. rewrite Forall_forall in H. apply H. Qed.
Lemma comparison_term e : shaped e -> is_comparison (term_of e) = comparison e.
Proof.
  destruct e; intros Sh; cbn [term_of comparison is_comparison]; try reflexivity.
  - unfold level_of. destruct (infix_level (t_kind op)); reflexivity.
  - unfold level_of. destruct (infix_level (t_kind op)); reflexivity.
  - unfold level_of. destruct (infix_level (t_kind op)); reflexivity.
  - destruct e2; reflexivity.
Qed.

Section Main.
Variable size : nat.
Hypothesis IH : forall e, esize e < size -> Parsed e.

Lemma infix_parsed l op r eq least rest res :
  esize l < size -> esize r < size ->
  sort_of l = SoExpr -> shaped l -> sort_of r = SoExpr -> shaped r ->
  (exists level, infix_level (t_kind op) = Some level /\
     level < right_least l /\ right_of (t_kind op) level <= left_least r /\
     (level = LEVEL_COMPARE -> comparison l = false)) /\
  (t_kind op = EQUAL -> eq = true) /\ grammatical eq l /\ grammatical eq r ->
  least <= Nat.min (level_of op) (left_least l) ->
  match next rest with
  | None => True
  | Some (t, _) =>
    (forall k, follow_level (t_kind t) = Some k ->
       k < Nat.min (right_of (t_kind op) (level_of op)) (right_least r)) /\
    (t_kind t = ELSE_KW -> wants_else r = false)
  end ->
  ev (fun f => operators f eq least (Infix (term_of l) op (term_of r)) rest) res ->
  ev (fun f => expression f eq least ((lines l ++ inline op :: lines r) ++ rest)) res.
Proof.
  intros Ll Lr So1 Sh1 So2 Sh2 [[level [E [L1 [L2 C]]]] [Q [G1 G2]]] Le Fi K.
  assert (El : level_of op = level) by (unfold level_of; rewrite E; reflexivity).
  rewrite El in *. rewrite <- app_assoc. cbn [app].
  apply (IH l Ll); auto; [lia| |].
  - unfold fits. cbn [next inline]. rewrite (infix_follow _ _ E). split.
    + intros k Ek. injection Ek as <-. exact L1.
    + intros X. destruct (infix_not_else _ _ E X).
  - apply ev_S. cbn [operators next inline]. rewrite (infix_opening _ _ E), E.
    assert (B : (least <=? level) && (eq || negb (kind_eqb (t_kind op) EQUAL)) = true).
    { apply andb_true_intro. split; [apply Nat.leb_le; lia|].
      destruct (kind_eqb (t_kind op) EQUAL) eqn:Ek; [|rewrite orb_true_r; reflexivity].
      rewrite (Q (proj1 (kind_eqb_eq _ _) Ek)). reflexivity. }
    rewrite B.
    assert (Bc : (level =? LEVEL_COMPARE) && is_comparison (term_of l) = false).
    { destruct (Nat.eqb_spec level LEVEL_COMPARE) as [Ec|]; [|reflexivity].
      rewrite (comparison_term l Sh1), (C Ec). reflexivity. }
    rewrite Bc.
    eapply ev_bind; [|exact K].
    apply parsed_whole; auto.
    + unfold fits. destruct (next rest) as [[t q]|]; [|exact I].
      destruct Fi as [F1 F2]. split; [|exact F2]. intros k Ek. specialize (F1 k Ek). lia.
    + unfold stops. destruct (next rest) as [[t q]|]; [|exact I].
      destruct Fi as [F1 F2]. intros k Ek. left. specialize (F1 k Ek). lia.
Qed.

Lemma body_parsed e b eq rest :
  fits e rest -> esize b < size -> sort_of b = SoExpr -> shaped b -> grammatical eq b ->
  LEVEL_BODY <= left_least b -> right_least e = Nat.min LEVEL_BODY (right_least b) ->
  (wants_else e = false -> wants_else b = false) ->
  ev (fun f => expression f eq LEVEL_BODY (lines b ++ rest)) (Some (term_of b, rest)).
Proof.
  intros Fi L So Sh G Lb Rb W. apply parsed_whole; auto.
  - apply (fits_mono e); auto. lia.
  - apply (fits_stops e); auto. lia.
Qed.

Lemma cond_parsed c eq t r :
  esize c < size -> sort_of c = SoExpr -> shaped c -> grammatical eq c ->
  separator (t_kind t) = true -> t_kind t <> EQUAL -> (t_kind t = ELSE_KW -> wants_else c = false) ->
  ev (fun f => expression f eq LEVEL_HELP (lines c ++ inline t :: r))
    (Some (term_of c, inline t :: r)).
Proof.
  intros L So Sh G S N W. apply parsed_closed; auto. exact (left_least_pos c So eq Sh G).
Qed.

Lemma params_parsed n l rest :
  esize (EParams n l) < size -> shaped (EParams n l) -> grammatical false (EParams n l) ->
  ev (fun f => items f true R_PAREN (listed_by_commas (map lines l) ++ inline tRPAREN :: rest))
    (Some (map param_term l, rest)).
Proof.
  intros L Sh G. cbn [shaped grammatical esize] in *.
  assert (Shape : forall x, In x l -> exists n a d, x = EParam n a d /\ is_leaf a /\
            grammatical false a /\
            (forall y, d = Some y -> exists n v, y = EDefault n v /\ Sound false v)).
  { intros x Hx. destruct (all_of_in _ _ _ Sh Hx) as [Sox Shx].
    pose proof (all_of_in _ _ _ G Hx) as Gx. pose proof (in_sum _ _ Hx) as Lx.
    destruct x; try discriminate Sox. cbn [shaped grammatical esize] in *.
    destruct Shx as [_ Shd], Gx as [La [Ga Gd]]. eexists _, _, _. split; [reflexivity|].
    split; [exact La|]. split; [exact Ga|]. intros y ->. cbn [opt_all osize] in *.
    destruct Shd as [Soy Shy]. destruct y; try discriminate Soy.
    cbn [shaped grammatical esize] in *. eexists _, _. split; [reflexivity|].
    destruct Shy as [Sov Shv]. split; [apply IH; lia|auto]. }
  apply (items_ok true R_PAREN param_term); [discriminate| |reflexivity|].
  - apply Forall_forall. intros x Hx. destruct (Shape x Hx) as [n' [a [d [-> [La [Ga Hd]]]]]].
    apply param_ok; assumption.
  - intros N. destruct l as [|x l]; [contradiction|].
    destruct (Shape x (or_introl eq_refl)) as [n' [a [d [-> [La [Ga Hd]]]]]].
    assert (X : exists t q, lines a = inline t :: q /\ starter (t_kind t) = true).
    { destruct a; try contradiction. apply first_token with (eq := false); auto.
      cbn [grammatical shaped] in *. destruct Ga as [[t [-> _]]|[s [m [z [-> _]]]]]; discriminate. }
    destruct X as [t [q [Ea St]]].
    assert (Y : exists q', listed_by_commas (map lines (EParam n' a d :: l)) ++ inline tRPAREN :: rest
                = inline t :: q').
    { cbn [map listed_by_commas lines]. rewrite Ea.
      destruct (map lines l); eexists; reflexivity. }
    destruct Y as [q' ->]. rewrite next_is_inline. apply starter_neq; [exact St|reflexivity].
Qed.

Lemma args_parsed n k rc l rest :
  esize (EArgs n k rc l) < size -> shaped (EArgs n k rc l) -> grammatical false (EArgs n k rc l) ->
  ev (fun f => items f false (closing k)
        (listed_by_commas (map lines l) ++ inline (r_token k) :: rest))
    (Some (map arg_term l, rest)).
Proof.
  intros L Sh [NH G]. cbn [shaped grammatical esize] in *.
  assert (Shape : forall x, In x l -> exists n nm v sl, x = EArg n nm v sl /\
            (forall y, nm = Some y -> exists n a, y = ENameClause n a /\ is_leaf a /\ Sound false a) /\
            (forall y, v = Some y -> Sound false y)).
  { intros x Hx. destruct (all_of_in _ _ _ Sh Hx) as [Sox Shx].
    pose proof (all_of_in _ _ _ G Hx) as Gx. pose proof (in_sum _ _ Hx) as Lx.
    destruct x; try discriminate Sox. cbn [shaped grammatical esize] in *.
    destruct Shx as [Shn Shv], Gx as [Gn Gv]. eexists _, _, _, _. split; [reflexivity|]. split.
    - intros y ->. cbn [opt_all osize] in *. destruct Shn as [Soy Shy]. destruct y; try discriminate Soy.
      cbn [shaped grammatical esize] in *. eexists _, _. split; [reflexivity|].
      destruct Shy as [Soa Sha], Gn as [La Ga]. split; [exact La|]. split; [apply IH; lia|auto].
    - intros y ->. cbn [opt_all osize] in *. destruct Shv as [Soy Shy]. split; [apply IH; lia|auto]. }
  apply (items_ok false (closing k) arg_term); [destruct k; discriminate| |reflexivity|].
  - apply Forall_forall. intros x Hx. destruct (Shape x Hx) as [n' [nm [v [sl [-> [Hn Hv]]]]]].
    apply arg_ok; assumption.
  - intros N. destruct l as [|x l]; [contradiction|].
    destruct (Shape x (or_introl eq_refl)) as [n' [nm [v [sl [-> [Hn Hv]]]]]].
    assert (First : forall e q, Sound false e -> next_is (closing k) (lines e ++ q) = false).
    { intros e q [_ [So [Sh' G']]]. destruct (first_token e So _ Sh' G') as [t [p [-> St]]].
      cbn [app]. rewrite next_is_inline. apply starter_neq; [exact St|apply closing_separator]. }
    assert (Sp : exists q, listed_by_commas (map lines (EArg n' nm v sl :: l)) ++
                  inline (r_token k) :: rest = lines (EArg n' nm v sl) ++ q /\
                  (nm = None -> v = None -> exists q', q = inline tCOMMA :: q')).
    { destruct l as [|y l].
      - cbn [map listed_by_commas]. eexists. split; [reflexivity|].
        intros -> ->. destruct (NH n' sl eq_refl).
      - cbn [map listed_by_commas]. rewrite <- app_assoc. eexists. split; [reflexivity|].
        intros _ _. eexists. reflexivity. }
    destruct Sp as [q [-> Hq]]. cbn [lines].
    destruct nm as [nm|].
    + destruct (Hn _ eq_refl) as [n2 [a [-> [La Sa]]]]. cbn [opt_list lines].
      rewrite <- !app_assoc. apply First, Sa.
    + destruct v as [v|].
      * cbn [opt_list app]. apply First, Hv. reflexivity.
      * destruct (Hq eq_refl eq_refl) as [q' ->]. cbn [opt_list app]. rewrite next_is_inline.
        destruct k; reflexivity.
Qed.

Lemma parsed_step e : esize e = size -> Parsed e.
Proof.
  intros Sz eq least rest res So Sh G Le Fi K.
  destruct e as [n k ts|n op a|n l op r|n l op r|n l op r|n kw ps b|n l|n a d|n v|n c t el|n nl a
    |n v s b|n c b|n b|n l|n b|n f args|n k rc l|n nm v sl|n nm]; try discriminate So;
    cbn [esize] in Sz.
  - (* leaf *)
    apply (parsed_start (ELeaf n k ts)); [|exact K]. apply ev_S. exists 0. intros f _.
    apply start_atom. exact G.
  - (* unary *)
    apply (parsed_start (EUnary n op a)); [|exact K]. cbn [lines app term_of shaped grammatical] in *.
    destruct Sh as [Sa Sha], G as [[level [E La]] Ga].
    assert (Ep : prefix_of op = level) by (unfold prefix_of; rewrite E; reflexivity).
    apply ev_S. cbn [start next inline]. rewrite (prefix_heading _ _ E).
    eapply ev_bind; [|apply ev_const].
    apply parsed_whole; auto; [apply IH; lia| |].
    + apply (fits_mono _ _ _ Fi); [cbn [right_least]; lia|auto].
    + apply (fits_stops _ _ _ _ Fi). cbn [right_least]. rewrite Ep. lia.
  - (* binary *)
    cbn [lines shaped] in *. destruct Sh as [[S1 S1'] [S2 S2']], G as [G0 [Gq [Gl [Gr _]]]].
    apply infix_parsed; auto; try lia.
  - cbn [lines shaped] in *. destruct Sh as [[S1 S1'] [S2 S2']], G as [G0 [Gq [Gl [Gr _]]]].
    apply infix_parsed; auto; try lia.
  - cbn [lines shaped] in *. destruct Sh as [[S1 S1'] [S2 S2']], G as [G0 [Gq [Gl [Gr _]]]].
    apply infix_parsed; auto; try lia.
  - (* function *)
    apply (parsed_start (EFunction n kw ps b)); [|exact K].
    cbn [shaped grammatical] in *. destruct Sh as [[Sp Shp] [Sb Shb]], G as [Gk [Gp [Gb Lb]]].
    destruct ps as [| | | | | |np l| | | | | | | | | | | | |]; try discriminate Sp.
    cbn [lines term_of app]. fold param_term.
    apply ev_S. cbn [start next inline].
    assert (Eh : heading_of (t_kind kw) = HFun) by (destruct Gk as [-> | ->]; reflexivity).
    rewrite Eh. rewrite <- ?app_assoc. cbn [app]. rewrite <- ?app_assoc. cbn [app].
    rewrite (eat_inline L_PAREN tLPAREN _ eq_refl).
    eapply ev_bind; [apply (params_parsed np l); auto; lia|].
    eapply ev_bind; [apply (body_parsed _ b _ _ Fi); auto; lia|]. apply ev_const.
  - (* if *)
    apply (parsed_start (EIf n c t el)); [|exact K].
    cbn [shaped grammatical] in *. destruct Sh as [[Sc Shc] [[St Sht] She]], G as [Gc [Gt [Lt [We Ge]]]].
    cbn [lines term_of app]. apply ev_S. cbn [start next inline].
    change (heading_of (t_kind tIF)) with HIf. cbn iota.
    rewrite <- ?app_assoc. cbn [app]. rewrite <- ?app_assoc.
    rewrite (eat_inline L_PAREN tLPAREN _ eq_refl).
    eapply ev_bind; [apply cond_parsed; auto; (lia || discriminate)|].
    rewrite (eat_inline R_PAREN tRPAREN _ eq_refl).
    destruct el as [el|].
    + cbn [opt_all osize opt_list] in *. destruct She as [Sel Shel].
      destruct el as [| | | | | | | | | |ne nl a| | | | | | | | |]; try discriminate Sel.
      cbn [shaped grammatical esize lines right_least wants_else] in *.
      destruct Shel as [Sa Sha], Ge as [Ga La]. cbn [app].
      eapply ev_bind.
      { apply parsed_closed; auto; [apply IH; lia|discriminate|].
        intros _. apply We. discriminate. }
      rewrite next_is_inline. change (kind_eqb (t_kind tELSE) ELSE_KW) with true. cbn iota.
      rewrite (eat_inline ELSE_KW tELSE _ eq_refl).
      eapply ev_bind; [apply (body_parsed _ a _ _ Fi); auto; lia|]. apply ev_const.
    + cbn [opt_list app].
      eapply ev_bind; [apply (body_parsed _ t _ _ Fi); auto; try lia; discriminate|].
      assert (N : next_is ELSE_KW rest = false).
      { unfold next_is. unfold fits in Fi. destruct (next rest) as [[q p]|]; [|reflexivity].
        destruct Fi as [_ Fi]. cbn [wants_else] in Fi. apply kind_eqb_neq. intros X.
        discriminate (Fi X). }
      rewrite N. apply ev_const.
  - (* for *)
    apply (parsed_start (EFor n v s b)); [|exact K].
    cbn [shaped grammatical] in *.
    destruct Sh as [[Sv Shv] [[Ss Shs] [Sb Shb]]], G as [Lv [Gv [Gs [Gb Lb]]]].
    destruct v as [nv kv ts| | | | | | | | | | | | | | | | | | |]; try contradiction.
    cbn [lines term_of app]. apply ev_S. cbn [start next inline].
    change (heading_of (t_kind tFOR)) with HFor. cbn iota.
    rewrite <- ?app_assoc. cbn [app]. rewrite <- ?app_assoc. cbn [app].
    rewrite (eat_inline L_PAREN tLPAREN _ eq_refl). cbn [grammatical] in Gv.
    rewrite (atom_ok ts _ Gv). rewrite (eat_inline IN_KW tIN _ eq_refl).
    eapply ev_bind; [apply cond_parsed; auto; (lia || discriminate)|].
    rewrite (eat_inline R_PAREN tRPAREN _ eq_refl).
    eapply ev_bind; [apply (body_parsed _ b _ _ Fi); auto; lia|]. apply ev_const.
  - (* while *)
    apply (parsed_start (EWhile n c b)); [|exact K].
    cbn [shaped grammatical] in *. destruct Sh as [[Sc Shc] [Sb Shb]], G as [Gc [Gb Lb]].
    cbn [lines term_of app]. apply ev_S. cbn [start next inline].
    change (heading_of (t_kind tWHILE)) with HWhile. cbn iota.
    rewrite <- ?app_assoc. cbn [app].
    rewrite (eat_inline L_PAREN tLPAREN _ eq_refl).
    eapply ev_bind; [apply cond_parsed; auto; (lia || discriminate)|].
    rewrite (eat_inline R_PAREN tRPAREN _ eq_refl).
    eapply ev_bind; [apply (body_parsed _ b _ _ Fi); auto; lia|]. apply ev_const.
  - (* repeat *)
    apply (parsed_start (ERepeat n b)); [|exact K].
    cbn [shaped grammatical] in *. destruct Sh as [Sb Shb], G as [Gb Lb].
    cbn [lines term_of app]. apply ev_S. cbn [start next inline].
    change (heading_of (t_kind tREPEAT)) with HRepeat. cbn iota.
    eapply ev_bind; [apply (body_parsed _ b _ _ Fi); auto; lia|]. apply ev_const.
  - (* braces *)
    apply (parsed_start (EBraced n l)); [|exact K].
    cbn [shaped grammatical] in *.
    cbn [lines term_of app]. apply ev_S. cbn [start next inline].
    change (heading_of (t_kind tLCURLY)) with HCurly. cbn iota.
    rewrite <- ?app_assoc. cbn [app].
    eapply ev_bind.
    { apply block_statements; [|right; eexists; reflexivity].
      apply Forall_forall. intros x Hx. destruct (all_of_in _ _ _ Sh Hx) as [Sox Shx].
      pose proof (all_of_in _ _ _ G Hx) as Gx. pose proof (in_sum _ _ Hx) as Lx.
      split; [apply IH; lia|auto]. }
    rewrite (eat_inline R_CURLY tRCURLY _ eq_refl). apply ev_const.
  - (* parentheses *)
    apply (parsed_start (EParen n b)); [|exact K].
    cbn [shaped grammatical] in *. destruct Sh as [Sb Shb].
    cbn [lines term_of app]. apply ev_S. cbn [start next inline].
    change (heading_of (t_kind tLPAREN)) with HRound. cbn iota.
    rewrite <- ?app_assoc. cbn [app].
    eapply ev_bind; [apply cond_parsed; auto; (lia || discriminate)|].
    rewrite (eat_inline R_PAREN tRPAREN _ eq_refl). apply ev_const.
  - (* call *)
    cbn [shaped grammatical left_least] in *.
    destruct Sh as [[Sf Shf] [Sa Sha]], G as [Gf [Lf Ga]].
    destruct args as [| | | | | | | | | | | | | | | | |na k rc l| |]; try discriminate Sa.
    cbn [lines]. rewrite <- ?app_assoc. cbn [app].
    apply (IH f); auto; [lia|lia| |].
    + unfold fits. cbn [next inline]. split; [|destruct k; discriminate].
      unfold follow_level. rewrite opening_l. intros q Eq. injection Eq as <-. exact Lf.
    + apply ev_S. cbn [operators next inline]. rewrite opening_l.
      assert (B : (least <=? LEVEL_CALL) = true) by (apply Nat.leb_le; lia). rewrite B.
      rewrite <- ?app_assoc. cbn [app].
      eapply ev_bind; [apply (args_parsed na k rc l); auto; lia|]. exact K.
Qed.
End Main.

Lemma parsed_all e : Parsed e.
Proof.
  assert (H : forall size e, esize e < size -> Parsed e).
  { induction size as [|size IH]; [lia|]. intros x L.
    destruct (Nat.eq_dec (esize x) size) as [E|N]; [exact (parsed_step size IH x E)|].
    apply IH. lia. }
  apply (H (S (esize e))). lia.
Qed.

Lemma program_parses es :
  all_of (fun x => sort_of x = SoExpr /\ shaped x) es -> all_of (grammatical true) es ->
  parses (program es) (map term_of es).
Proof.
  intros Sh G. unfold parses, program.
  pose proof (block_statements es []) as B. rewrite app_nil_r in B. apply B; [|left; reflexivity].
  apply Forall_forall. intros x Hx. destruct (all_of_in _ _ _ Sh Hx) as [So S].
  split; [apply parsed_all|]. split; [exact So|]. split; [exact S|]. exact (all_of_in _ _ _ G Hx).
Qed.
Lemma parses_once ts l l' : parses ts l -> parses ts l' -> l = l'.
Proof.
  intros [n H] [m K]. specialize (H (Nat.max n m) ltac:(lia)). specialize (K (Nat.max n m) ltac:(lia)).
  rewrite H in K. injection K as ->. reflexivity.
Qed.
