(** What R's parser builds is grammatical and made of the tokens it read: the
    converse of GrammarProofs.v. *)
From Coq Require Import List Arith Bool NArith Lia.
From Verif Require Import Text SettingsModel SyntaxKind FmtTree FmtSpec RReadSpec FmtLineSpec
  FmtFactProofs GrammarSpec GrammarProofs.
Import ListNotations.

(** * Terms as tokens *)

Fixpoint tlines (x : term) : input :=
  match x with
  | Atom ts => map inline ts
  | Prefix op a => inline op :: tlines a
  | Infix l op r => tlines l ++ inline op :: tlines r
  | Apply f k args =>
    tlines f ++ inline (l_token k) ::
    listed_by_commas (map (fun '(a, v) =>
      match a with Some a => tlines a ++ [inline tEQUAL] | None => [] end ++
      match v with Some v => tlines v | None => [] end) args) ++ [inline (r_token k)]
  | Round a => inline tLPAREN :: tlines a ++ [inline tRPAREN]
  | Curly l => inline tLCURLY :: statements (map tlines l) ++ [inline tRCURLY]
  | Fun kw ps b =>
    inline kw :: inline tLPAREN ::
    listed_by_commas (map (fun '(a, v) =>
      match a with Some a => tlines a | None => [] end ++
      match v with Some v => inline tEQUAL :: tlines v | None => [] end) ps) ++
    inline tRPAREN :: tlines b
  | If c a e =>
    inline tIF :: inline tLPAREN :: tlines c ++ inline tRPAREN :: tlines a ++
    match e with Some e => inline tELSE :: tlines e | None => [] end
  | For v s b =>
    inline tFOR :: inline tLPAREN :: tlines v ++ inline tIN :: tlines s ++ inline tRPAREN :: tlines b
  | While c b => inline tWHILE :: inline tLPAREN :: tlines c ++ inline tRPAREN :: tlines b
  | Repeat b => inline tREPEAT :: tlines b
  end.
Definition item_lines (params : bool) (i : option term * option term) : input :=
  if params then
    match fst i with Some a => tlines a | None => [] end ++
    match snd i with Some v => inline tEQUAL :: tlines v | None => [] end
  else
    match fst i with Some a => tlines a ++ [inline tEQUAL] | None => [] end ++
    match snd i with Some v => tlines v | None => [] end.
Lemma apply_lines f k args :
  tlines (Apply f k args) =
  tlines f ++ inline (l_token k) :: listed_by_commas (map (item_lines false) args) ++ [inline (r_token k)].
Proof.
  cbn [tlines]. do 4 f_equal. apply map_ext. intros [a v]. reflexivity.
Qed.
Lemma fun_lines kw ps b :
  tlines (Fun kw ps b) =
  inline kw :: inline tLPAREN :: listed_by_commas (map (item_lines true) ps) ++ inline tRPAREN :: tlines b.
Proof.
  cbn [tlines]. do 4 f_equal. apply map_ext. intros [a v]. reflexivity.
Qed.

(** * Levels *)

Fixpoint tleft (x : term) : nat :=
  match x with
  | Infix l op _ => Nat.min (level_of op) (tleft l)
  | Apply f _ _ => Nat.min LEVEL_CALL (tleft f)
  | _ => LEVEL_TOP
  end.
Fixpoint tright (x : term) : nat :=
  match x with
  | Prefix op a => Nat.min (S (prefix_of op)) (tright a)
  | Infix _ op r => Nat.min (right_of (t_kind op) (level_of op)) (tright r)
  | Fun _ _ b | For _ _ b | While _ b | Repeat b => Nat.min LEVEL_BODY (tright b)
  | If _ t None => Nat.min LEVEL_BODY (tright t)
  | If _ _ (Some e) => Nat.min LEVEL_BODY (tright e)
  | _ => LEVEL_TOP
  end.
Fixpoint twants (x : term) : bool :=
  match x with
  | Prefix _ a => twants a
  | Infix _ _ r => twants r
  | Fun _ _ b | For _ _ b | While _ b | Repeat b => twants b
  | If _ _ None => true
  | If _ _ (Some e) => twants e
  | _ => false
  end.
Definition is_atom (x : term) : Prop := match x with Atom _ => True | _ => False end.

Fixpoint tgram (eq : bool) (x : term) : Prop :=
  match x with
  | Atom ts => atom_tokens ts
  | Prefix op a =>
    (exists level, prefix_level (t_kind op) = Some level /\ level < tleft a) /\
    tgram (eq || kind_eqb (t_kind op) WAT) a
  | Infix l op r =>
    (exists level, infix_level (t_kind op) = Some level /\
       level < tright l /\ right_of (t_kind op) level <= tleft r /\
       (level = LEVEL_COMPARE -> is_comparison l = false)) /\
    (t_kind op = EQUAL -> eq = true) /\ tgram eq l /\ tgram eq r
  | Apply f _ args =>
    tgram eq f /\ LEVEL_CALL < tright f /\ args <> [(None, None)] /\
    all_of (fun '(a, v) =>
      match a with Some a => is_atom a /\ tgram false a | None => True end /\
      match v with Some v => tgram false v | None => True end) args
  | Round a => tgram true a
  | Curly l => all_of (tgram true) l
  | Fun kw ps b =>
    (t_kind kw = FUNCTION_KW \/ t_kind kw = BACKSLASH) /\
    all_of (fun '(a, v) =>
      match a with Some a => is_atom a /\ tgram false a | None => False end /\
      match v with Some v => tgram false v | None => True end) ps /\
    tgram true b /\ LEVEL_BODY <= tleft b
  | If c t e =>
    tgram false c /\ tgram true t /\ LEVEL_BODY <= tleft t /\
    (e <> None -> twants t = false) /\
    match e with Some e => tgram true e /\ LEVEL_BODY <= tleft e | None => True end
  | For v s b =>
    is_atom v /\ tgram false v /\ tgram false s /\ tgram true b /\ LEVEL_BODY <= tleft b
  | While c b => tgram false c /\ tgram true b /\ LEVEL_BODY <= tleft b
  | Repeat b => tgram true b /\ LEVEL_BODY <= tleft b
  end.
Definition item_gram (params : bool) (i : option term * option term) : Prop :=
  match fst i with Some a => is_atom a /\ tgram false a | None => if params then False else True end /\
  match snd i with Some v => tgram false v | None => True end.
Lemma items_gram params l :
  Forall (item_gram params) l ->
  all_of (fun '(a, v) =>
      match a with Some a => is_atom a /\ tgram false a | None => if params then False else True end /\
      match v with Some v => tgram false v | None => True end) l.
Proof. intros F. induction F as [|[a v] l H F IH]; [exact I|]. split; [exact H|exact IH]. Qed.

(** * Inputs *)

(** Keywords and delimiters are spelled as they are called. *)
Definition fixed_tokens : list token :=
  [ tLPAREN; tRPAREN; tLCURLY; tRCURLY; tCOMMA; tEQUAL; tIF; tELSE; tFOR; tIN; tWHILE; tREPEAT;
    l_token KSubset; r_token KSubset; l_token KSubset2; r_token KSubset2 ].
Definition named (t : token) : Prop := forall u, In u fixed_tokens -> t_kind t = t_kind u -> t = u.
(** No expression ends right after an opening brace. *)
Fixpoint fresh_calm (ts : input) : Prop :=
  match ts with
  | (t, _) :: (((_, b) :: _) as r) => (t_kind t = L_CURLY -> b = false) /\ fresh_calm r
  | _ => True
  end.
Definition clean (ts : input) : Prop := Forall (fun x => named (fst x)) ts /\ fresh_calm ts.
Lemma clean_tail x ts : clean (x :: ts) -> clean ts.
Proof.
  intros [A B]. split; [exact (Forall_inv_tail A)|]. destruct x as [t b]. cbn [fresh_calm] in B.
  destruct ts as [|[t' b'] r]; [exact I|]. exact (proj2 B).
Qed.
Lemma clean_app a b : clean (a ++ b) -> clean b.
Proof. induction a as [|x a IH]; [auto|]. cbn [app]. intros H. apply IH, (clean_tail _ _ H). Qed.

Lemma next_some ts t r : next ts = Some (t, r) -> ts = inline t :: r.
Proof. destruct ts as [|[u [|]] q]; try discriminate. intros H. injection H as <- <-. reflexivity. Qed.
Lemma eat_some k ts r : eat k ts = Some r -> exists t, t_kind t = k /\ ts = inline t :: r.
Proof.
  unfold eat. destruct (next ts) as [[t q]|] eqn:E; [|discriminate].
  destruct (kind_eqb (t_kind t) k) eqn:K; [|discriminate]. intros H. injection H as <-.
  exists t. split; [apply kind_eqb_eq, K|apply next_some, E].
Qed.
Lemma eat_named u ts r : clean ts -> In u fixed_tokens -> eat (t_kind u) ts = Some r ->
  ts = inline u :: r /\ clean r.
Proof.
  intros C Hu E. destruct (eat_some _ _ _ E) as [t [K ->]]. split; [|exact (clean_tail _ _ C)].
  destruct C as [C _]. pose proof (Forall_inv C) as N. cbn in N. rewrite (N u Hu K). reflexivity.
Qed.
Lemma next_is_some k ts : next_is k ts = true -> exists t r, ts = inline t :: r /\ t_kind t = k.
Proof.
  unfold next_is. destruct (next ts) as [[t q]|] eqn:E; [|discriminate]. intros H.
  exists t, q. split; [apply next_some, E|apply kind_eqb_eq, H].
Qed.

(** * Ends *)

(** The rest does not go on with the term. *)
Definition ended (eq : bool) (x : term) (rest : input) : Prop :=
  match next rest with
  | None => True
  | Some (t, _) =>
    (forall l, follow_level (t_kind t) = Some l -> (eq = false -> t_kind t <> EQUAL) -> l < tright x) /\
    (t_kind t = ELSE_KW -> twants x = false)
  end.
Definition stopped (eq : bool) (least : nat) (rest : input) : Prop :=
  match next rest with
  | None => True
  | Some (t, _) =>
    forall l, follow_level (t_kind t) = Some l -> (eq = false -> t_kind t <> EQUAL) -> l < least
  end.
Lemma ended_top eq x rest : tright x = LEVEL_TOP -> twants x = false -> ended eq x rest.
Proof.
  intros A B. unfold ended. destruct (next rest) as [[t r]|]; [|exact I]. split; [|auto].
  intros l F _. rewrite A. exact (follow_bound _ _ F).
Qed.
Lemma ended_min eq eq' least x y rest :
  (eq = true -> eq' = true) ->
  ended eq' x rest -> stopped eq' least rest -> Nat.min least (tright x) <= tright y ->
  (twants x = false -> twants y = false) -> ended eq y rest.
Proof.
  intros Q. unfold ended, stopped. destruct (next rest) as [[t r]|]; [|auto]. intros [A A'] B M W. split; [|auto].
  intros l F N.
  assert (N' : eq' = false -> t_kind t <> EQUAL).
  { intros Z. apply N. destruct eq; [rewrite Q in Z by reflexivity; discriminate|reflexivity]. }
  specialize (A l F N'). specialize (B l F N'). lia.
Qed.

Definition headed (x : term) : Prop := exists t r, tlines x = inline t :: r.
Lemma headed_app a r : headed a -> exists t q, tlines a ++ r = inline t :: q.
Proof. intros [t [q ->]]. exists t, (q ++ r). reflexivity. Qed.

(** * What the functions of the parser return *)

Definition PExpression (f : nat) : Prop := forall eq least ts x r,
  expression f eq least ts = Some (x, r) -> clean ts -> least <= LEVEL_TOP ->
  ts = tlines x ++ r /\ headed x /\ tgram eq x /\ least <= tleft x /\ ended eq x r /\ stopped eq least r.
Definition PStart (f : nat) : Prop := forall eq ts x r,
  start f eq ts = Some (x, r) -> clean ts ->
  ts = tlines x ++ r /\ headed x /\ tgram eq x /\ tleft x = LEVEL_TOP /\ ended eq x r.
Definition POperators (f : nat) : Prop := forall eq least x ts y r,
  operators f eq least x ts = Some (y, r) -> clean ts ->
  headed x -> tgram eq x -> least <= tleft x -> ended eq x ts ->
  (exists m, tlines y = tlines x ++ m /\ ts = m ++ r) /\ headed y /\ tgram eq y /\
  least <= tleft y /\ ended eq y r /\ stopped eq least r.
Definition PBlock (f : nat) : Prop := forall ts l r,
  block f ts = Some (l, r) -> clean ts ->
  (exists b, ts = flag b (statements (map tlines l)) ++ r) /\ all_of (tgram true) l /\
  Forall headed l /\ (l = [] -> r = [] \/ exists t b q, r = (t, b) :: q /\ t_kind t = R_CURLY).
Definition PMore (f : nat) : Prop := forall params close ts l r,
  more_items f params close ts = Some (l, r) -> clean ts ->
  (exists t, t_kind t = close /\
     ts = listed_by_commas (map (item_lines params) l) ++ inline t :: r) /\
  Forall (item_gram params) l /\ l <> [] /\
  (params = false -> next_is close ts = false -> l <> [(None, None)]).
Definition PItems (f : nat) : Prop := forall params close ts l r,
  items f params close ts = Some (l, r) -> clean ts ->
  (exists t, t_kind t = close /\
     ts = listed_by_commas (map (item_lines params) l) ++ inline t :: r) /\
  Forall (item_gram params) l /\ (params = false -> l <> [(None, None)]).
Definition PItem (f : nat) : Prop := forall params close ts i r,
  item f params close ts = Some (i, r) -> clean ts ->
  ts = item_lines params i ++ r /\ item_gram params i /\
  (i = (None, None) -> next_is COMMA ts || next_is close ts = true).

Lemma string_rest_some ts s r : string_rest ts = Some (s, r) ->
  exists m z, s = m ++ [z] /\ t_kind z = STRING_CLOSE /\
    all_of (fun t => t_kind t <> STRING_CLOSE) m /\ ts = map inline s ++ r.
Proof.
  revert s r. induction ts as [|[t [|]] ts IH]; intros s r; try discriminate. cbn [string_rest].
  destruct (kind_eqb (t_kind t) STRING_CLOSE) eqn:K.
  - intros H. injection H as <- <-. exists [], t. split; [reflexivity|].
    split; [apply kind_eqb_eq, K|]. split; [exact I|reflexivity].
  - destruct (string_rest ts) as [[s' r']|] eqn:E; [|discriminate]. intros H. injection H as <- <-.
    destruct (IH _ _ eq_refl) as [m [z [-> [Z [M ->]]]]]. exists (t :: m), z.
    split; [reflexivity|]. split; [exact Z|]. split; [|reflexivity].
    split; [apply kind_eqb_neq, K|exact M].
Qed.
Lemma atom_some ts x r : atom ts = Some (x, r) ->
  exists l, x = Atom l /\ atom_tokens l /\ ts = map inline l ++ r.
Proof.
  unfold atom. destruct (next ts) as [[t q]|] eqn:N; [|discriminate]. apply next_some in N. subst ts.
  destruct (atomic (t_kind t)) eqn:A.
  - intros H. injection H as <- <-. exists [t]. split; [reflexivity|].
    split; [left; exists t; auto|reflexivity].
  - destruct (kind_eqb (t_kind t) STRING_OPEN) eqn:K; [|discriminate].
    destruct (string_rest q) as [[s q']|] eqn:E; [|discriminate]. intros H. injection H as <- <-.
    destruct (string_rest_some _ _ _ E) as [m [z [-> [Z [M ->]]]]]. exists (t :: m ++ [z]).
    split; [reflexivity|]. split; [right; exists t, m, z; split; [reflexivity|];
      split; [apply kind_eqb_eq, K|]; split; [exact Z|exact M]|reflexivity].
Qed.
Lemma atom_headed l : atom_tokens l -> headed (Atom l).
Proof.
  intros [[t [-> _]]|[a [m [z [-> _]]]]]; unfold headed; cbn [tlines map].
  - exists t, []. reflexivity.
  - exists a, (map inline (m ++ [z])). reflexivity.
Qed.
Lemma atom_gram l eq : atom_tokens l -> tgram eq (Atom l).
Proof. auto. Qed.

Lemma flag_app b x y : x <> [] -> flag b (x ++ y) = flag b x ++ y.
Proof. destruct x as [|[t f] x]; [contradiction|reflexivity]. Qed.
Lemma headed_nonempty x : headed x -> tlines x <> [].
Proof. intros [t [r ->]]. discriminate. Qed.
Lemma flag_false l : flag false l = l.
Proof. destruct l as [|[t b] l]; reflexivity. Qed.

(** * One step *)

Section Step.
Variable f : nat.
Variable IHe : PExpression f.
Variable IHs : PStart f.
Variable IHo : POperators f.
Variable IHb : PBlock f.
Variable IHi : PItems f.
Variable IHm : PMore f.
Variable IHt : PItem f.

Lemma expression_step : PExpression (S f).
Proof.
  intros eq least ts x r H C L. cbn [expression] in H.
  destruct (start f eq ts) as [[a q]|] eqn:E; [|discriminate].
  destruct (IHs _ _ _ _ E C) as [-> [Ha [Ga [La Ea]]]].
  destruct (IHo _ _ _ _ _ _ H (clean_app _ _ C) Ha Ga ltac:(lia) Ea)
    as [[m [Em ->]] [Hx [Gx [Lx [Ex Sx]]]]].
  rewrite Em, <- app_assoc. auto 6.
Qed.

Lemma body_step ts x r : expression f true LEVEL_BODY ts = Some (x, r) -> clean ts ->
  ts = tlines x ++ r /\ tgram true x /\ LEVEL_BODY <= tleft x /\ ended true x r /\
  stopped true LEVEL_BODY r.
Proof.
  intros E C. destruct (IHe _ _ _ _ _ E C ltac:(unfold LEVEL_BODY, LEVEL_TOP; lia)) as [A [_ [B [D [F G]]]]].
  auto 6.
Qed.
Lemma inner_step eq ts x r : expression f eq LEVEL_HELP ts = Some (x, r) -> clean ts ->
  ts = tlines x ++ r /\ tgram eq x /\ headed x.
Proof.
  intros E C. destruct (IHe _ _ _ _ _ E C ltac:(unfold LEVEL_HELP, LEVEL_TOP; lia)) as [A [B [D _]]].
  auto 6.
Qed.
Lemma true_any eq : eq = true -> true = true. Proof. reflexivity. Qed.

Ltac eaten E C C' u :=
  let K := fresh in
  destruct (eat_named u _ _ C ltac:(unfold fixed_tokens; cbn; tauto) E) as [K C']; rewrite K in *; clear K E.
Ltac bind H E x r :=
  match type of H with
  | match ?a with Some _ => _ | None => None end = Some _ =>
    destruct a as [[x r]|] eqn:E; [|discriminate H]
  end.
Ltac bind1 H E r :=
  match type of H with
  | match ?a with Some _ => _ | None => None end = Some _ =>
    destruct a as [r|] eqn:E; [|discriminate H]
  end.

Lemma heading_kind k : 
  match heading_of k with
  | HRound => k = L_PAREN | HCurly => k = L_CURLY | HFun => k = FUNCTION_KW \/ k = BACKSLASH
  | HIf => k = IF_KW | HFor => k = FOR_KW | HWhile => k = WHILE_KW | HRepeat => k = REPEAT_KW
  | HPrefix level => prefix_level k = Some level
  | HOther => True
  end.
Proof. destruct k; vm_compute; auto. Qed.
Lemma first_named u t r : clean (inline t :: r) -> In u fixed_tokens -> t_kind t = t_kind u -> t = u.
Proof. intros [C _] Hu K. exact (Forall_inv C u Hu K). Qed.
Ltac named_as u C K :=
  let Z := fresh in
  pose proof (first_named u _ _ C ltac:(unfold fixed_tokens; cbn; tauto) K) as Z;
  match type of Z with ?v = _ => subst v end.

Lemma start_step : PStart (S f).
Proof.
  intros eq ts x r H C. cbn [start] in H.
  bind H Hn t q. apply next_some in Hn. subst ts. pose proof (clean_tail _ _ C) as Cq.
  pose proof (heading_kind (t_kind t)) as K.
  destruct (heading_of (t_kind t)) as [| | | | | | |level|].
  - (* parentheses *)
    bind H E a q1. bind1 H E1 q2. injection H as <- <-.
    destruct (inner_step _ _ _ _ E Cq) as [-> [G _]]. pose proof (clean_app _ _ Cq) as C1.
    eaten E1 C1 C2 tRPAREN. named_as tLPAREN C K.
    split; [cbn [tlines app]; rewrite <- app_assoc; reflexivity|].
    split; [eexists _, _; reflexivity|]. split; [exact G|]. split; [reflexivity|].
    apply ended_top; reflexivity.
  - (* braces *)
    bind H E l q1. bind1 H E1 q2. injection H as <- <-.
    destruct (IHb _ _ _ E Cq) as [[b ->] [G _]]. pose proof (clean_app _ _ Cq) as C1.
    eaten E1 C1 C2 tRCURLY. named_as tLCURLY C K.
    split; [|split; [eexists _, _; reflexivity|]; split; [exact G|]; split; [reflexivity|];
             apply ended_top; reflexivity].
    cbn [tlines app]. rewrite <- app_assoc. f_equal.
    destruct (statements (map tlines l)) as [|[t0 b0] s] eqn:Es; [reflexivity|].
    destruct C as [_ C]. cbn [flag app inline fresh_calm] in C. destruct C as [C _].
    specialize (C eq_refl). cbn [flag app].
    rewrite C. destruct b; [discriminate C|]. cbn [orb] in C. rewrite C. reflexivity.
  - (* functions *)
    bind1 H E0 q0. bind H E ps q1. bind H E1 b q2. injection H as <- <-.
    eaten E0 Cq C0 tLPAREN.
    destruct (IHi _ _ _ _ _ E C0) as [[z [Kz Ez]] [G _]]. subst q0.
    pose proof (clean_app _ _ C0) as C1. named_as tRPAREN C1 Kz. pose proof (clean_tail _ _ C1) as C2.
    destruct (body_step _ _ _ E1 C2) as [-> [Gb [Lb [Eb Sb]]]].
    rewrite fun_lines. split; [cbn [app]; rewrite <- app_assoc; reflexivity|].
    split; [unfold headed; rewrite fun_lines; eexists _, _; reflexivity|].
    split; [cbn [tgram]; split; [exact K|]; split; [exact (items_gram true _ G)|]; auto|].
    split; [reflexivity|].
    apply (ended_min eq true LEVEL_BODY b); auto; cbn [tright]; lia.
  - (* if *)
    bind1 H E0 q0. bind H E c q1. bind1 H E1 q2. bind H E2 a q3.
    eaten E0 Cq C0 tLPAREN.
    destruct (inner_step _ _ _ _ E C0) as [-> [Gc _]]. pose proof (clean_app _ _ C0) as C1.
    eaten E1 C1 C2 tRPAREN. named_as tIF C K.
    destruct (body_step _ _ _ E2 C2) as [-> [Ga [La [Ea Sa]]]]. pose proof (clean_app _ _ C2) as C3.
    destruct (next_is ELSE_KW q3) eqn:Ne.
    + bind1 H E3 q4. bind H E4 e q5. injection H as <- <-.
      assert (W : twants a = false).
      { destruct (next_is_some _ _ Ne) as [t' [r' [-> K']]]. unfold ended in Ea. cbn [next inline] in Ea.
        exact (proj2 Ea K'). }
      eaten E3 C3 C4 tELSE. destruct (body_step _ _ _ E4 C4) as [-> [Ge [Le [Ee Se]]]].
      split; [cbn [tlines app]; rewrite <- !app_assoc; cbn [app]; rewrite <- !app_assoc; reflexivity|].
      split; [eexists _, _; reflexivity|].
      split; [cbn [tgram]; auto 8|]. split; [reflexivity|].
      apply (ended_min eq true LEVEL_BODY e); auto; cbn [tright]; lia.
    + injection H as <- <-.
      split; [cbn [tlines app]; rewrite <- !app_assoc; cbn [app]; rewrite <- !app_assoc; reflexivity|].
      split; [eexists _, _; reflexivity|].
      split; [cbn [tgram]; repeat split; auto; congruence|]. split; [reflexivity|].
      unfold ended, stopped in *. unfold next_is in Ne. destruct (next q3) as [[t' r']|]; [|exact I].
      split; [|intros Z; rewrite Z, kind_eqb_refl in Ne; discriminate].
      intros l F _. cbn [tright].
      pose proof (proj1 Ea l F ltac:(discriminate)). pose proof (Sa l F ltac:(discriminate)). lia.
  - (* for *)
    bind1 H E0 q0. bind H E v q1. bind1 H E1 q2. bind H E2 s q3. bind1 H E3 q4. bind H E4 b q5.
    injection H as <- <-.
    eaten E0 Cq C0 tLPAREN. destruct (atom_some _ _ _ E) as [lv [-> [Av ->]]].
    pose proof (clean_app _ _ C0) as C1. eaten E1 C1 C2 tIN. named_as tFOR C K.
    destruct (inner_step _ _ _ _ E2 C2) as [-> [Gs _]]. pose proof (clean_app _ _ C2) as C3.
    eaten E3 C3 C4 tRPAREN. destruct (body_step _ _ _ E4 C4) as [-> [Gb [Lb [Eb Sb]]]].
    split; [cbn [tlines app]; rewrite <- !app_assoc; cbn [app]; rewrite <- !app_assoc; reflexivity|].
    split; [eexists _, _; reflexivity|].
    split; [cbn [tgram is_atom]; auto 8|]. split; [reflexivity|].
    apply (ended_min eq true LEVEL_BODY b); auto; cbn [tright]; lia.
  - (* while *)
    bind1 H E0 q0. bind H E2 s q3. bind1 H E3 q4. bind H E4 b q5.
    injection H as <- <-.
    eaten E0 Cq C0 tLPAREN. named_as tWHILE C K.
    destruct (inner_step _ _ _ _ E2 C0) as [-> [Gs _]]. pose proof (clean_app _ _ C0) as C3.
    eaten E3 C3 C4 tRPAREN. destruct (body_step _ _ _ E4 C4) as [-> [Gb [Lb [Eb Sb]]]].
    split; [cbn [tlines app]; rewrite <- !app_assoc; reflexivity|].
    split; [eexists _, _; reflexivity|].
    split; [cbn [tgram is_atom]; auto 8|]. split; [reflexivity|].
    apply (ended_min eq true LEVEL_BODY b); auto; cbn [tright]; lia.
  - (* repeat *)
    bind H E4 b q5. injection H as <- <-. named_as tREPEAT C K.
    destruct (body_step _ _ _ E4 Cq) as [-> [Gb [Lb [Eb Sb]]]].
    split; [reflexivity|]. split; [eexists _, _; reflexivity|].
    split; [cbn [tgram is_atom]; auto 8|]. split; [reflexivity|].
    apply (ended_min eq true LEVEL_BODY b); auto; cbn [tright]; lia.
  - (* prefix *)
    bind H E a q1. injection H as <- <-.
    assert (Lt : S level <= LEVEL_TOP).
    { clear - K. destruct (t_kind t); try discriminate K; injection K as <-; unfold LEVEL_TOP, LEVEL_HELP; lia. }
    destruct (IHe _ _ _ _ _ E Cq Lt) as [-> [_ [Ga [La [Ea Sa]]]]].
    split; [reflexivity|]. split; [eexists _, _; reflexivity|].
    split; [cbn [tgram]; split; [exists level; split; [exact K|lia]|exact Ga]|]. split; [reflexivity|].
    apply (ended_min eq (eq || kind_eqb (t_kind t) WAT) (S level) a); auto.
    + intros ->. reflexivity.
    + cbn [tright]. unfold prefix_of. rewrite K. lia.
  - (* atoms *)
    destruct (atom_some _ _ _ H) as [l [-> [A ->]]].
    split; [reflexivity|]. split; [exact (atom_headed _ A)|]. split; [exact A|]. split; [reflexivity|].
    apply ended_top; reflexivity.
Qed.

Lemma operators_step : POperators (S f).
Proof.
  intros eq least x ts y r H C Hx Gx Lx Ex. cbn [operators] in H.
  destruct (next ts) as [[t q]|] eqn:N.
  2:{ injection H as <- <-. split; [exists []; rewrite app_nil_r; auto|].
      repeat split; auto. unfold stopped. rewrite N. exact I. }
  pose proof (next_some _ _ _ N) as Ets.
  destruct (opening (t_kind t)) as [c|] eqn:Eo.
  - assert (Fo : follow_level (t_kind t) = Some LEVEL_CALL) by (unfold follow_level; rewrite Eo; reflexivity).
    destruct (Nat.leb_spec least LEVEL_CALL) as [B|B].
    2:{ injection H as <- <-. split; [exists []; rewrite app_nil_r; auto|].
        repeat split; auto. unfold stopped. rewrite N. intros l F _. rewrite Fo in F. injection F as <-. exact B. }
    bind H E l q1. subst ts. pose proof (clean_tail _ _ C) as Cq.
    destruct (IHi _ _ _ _ _ E Cq) as [[z [Kz Ez]] [Gl Nl]]. subst q.
    pose proof (clean_app _ _ Cq) as C1.
    assert (Ez : z = r_token c).
    { apply (first_named _ _ _ C1); [unfold fixed_tokens; destruct c; cbn; tauto|exact Kz]. }
    assert (Et : t = l_token c).
    { apply (first_named _ _ _ C); [unfold fixed_tokens; destruct c; cbn; tauto|].
      clear - Eo. destruct (t_kind t); try discriminate Eo; injection Eo as <-; reflexivity. }
    rewrite Ez in *. rewrite Et in *. pose proof (clean_tail _ _ C1) as C2.
    assert (Lf : LEVEL_CALL < tright x).
    { unfold ended in Ex. cbn [next inline] in Ex. apply (proj1 Ex _ Fo). intros _ Q.
      clear - Q. destruct c; discriminate Q. }
    destruct (IHo _ _ _ _ _ _ H C2) as [[m [Em ->]] R].
    + destruct Hx as [t0 [r0 E0]]. unfold headed. rewrite apply_lines, E0. eexists _, _; reflexivity.
    + cbn [tgram]. split; [exact Gx|]. split; [exact Lf|]. split; [exact (Nl eq_refl)|].
      exact (items_gram false _ Gl).
    + cbn [tleft]. lia.
    + apply ended_top; reflexivity.
    + split; [|exact R]. exists (inline (l_token c) :: listed_by_commas (map (item_lines false) l) ++
        [inline (r_token c)] ++ m).
      rewrite Em, apply_lines. split.
      * rewrite <- !app_assoc. cbn [app]. rewrite <- !app_assoc. reflexivity.
      * cbn [app]. rewrite <- !app_assoc. reflexivity.
  - destruct (infix_level (t_kind t)) as [level|] eqn:El.
    2:{ injection H as <- <-. split; [exists []; rewrite app_nil_r; auto|].
        repeat split; auto. unfold stopped. rewrite N. intros l F _. unfold follow_level in F.
        rewrite Eo, El in F. discriminate. }
    assert (Fo : follow_level (t_kind t) = Some level) by (unfold follow_level; rewrite Eo; exact El).
    destruct ((least <=? level) && (eq || negb (kind_eqb (t_kind t) EQUAL))) eqn:B.
    2:{ injection H as <- <-. split; [exists []; rewrite app_nil_r; auto|].
        repeat split; auto. unfold stopped. rewrite N. intros l F Q. rewrite Fo in F. injection F as <-.
        apply andb_false_iff in B. destruct B as [B|B]; [apply Nat.leb_gt in B; exact B|].
        apply orb_false_iff in B. destruct B as [B1 B2]. apply negb_false_iff, kind_eqb_eq in B2.
        contradiction (Q B1 B2). }
    apply andb_true_iff in B. destruct B as [B1 B2]. apply Nat.leb_le in B1.
    destruct ((level =? LEVEL_COMPARE) && is_comparison x) eqn:Cm; [discriminate H|].
    bind H E a q1. subst ts. pose proof (clean_tail _ _ C) as Cq.
    assert (Q : eq = false -> t_kind t <> EQUAL).
    { intros ->. cbn [orb] in B2. apply negb_true_iff in B2. apply kind_eqb_neq, B2. }
    assert (Lr : level < tright x).
    { unfold ended in Ex. cbn [next inline] in Ex. exact (proj1 Ex _ Fo Q). }
    assert (Lt : right_of (t_kind t) level <= LEVEL_TOP).
    { pose proof (infix_bound _ _ El). unfold right_of. destruct (right_assoc _); lia. }
    destruct (IHe _ _ _ _ _ E Cq Lt) as [-> [_ [Ga [La [Ea Sa]]]]].
    destruct (IHo _ _ _ _ _ _ H (clean_app _ _ Cq)) as [[m [Em ->]] R].
    + destruct Hx as [t0 [r0 E0]]. unfold headed. cbn [tlines]. rewrite E0. eexists _, _; reflexivity.
    + cbn [tgram]. split.
      { exists level. split; [exact El|]. split; [exact Lr|]. split; [exact La|]. intros ->.
        rewrite Nat.eqb_refl in Cm. exact Cm. }
      split; [|auto]. intros Z. destruct eq; [reflexivity|]. contradiction (Q eq_refl Z).
    + cbn [tleft]. unfold level_of. rewrite El. lia.
    + apply (ended_min eq eq (right_of (t_kind t) level) a); auto. cbn [tright]. unfold level_of.
      rewrite El. lia.
    + split; [|exact R]. exists (inline t :: tlines a ++ m). rewrite Em. cbn [tlines]. split.
      * rewrite <- !app_assoc. reflexivity.
      * cbn [app]. rewrite <- !app_assoc. reflexivity.
Qed.

Lemma block_step : PBlock (S f).
Proof.
  intros ts l r H C. cbn [block] in H.
  destruct ts as [|[t b] q].
  { injection H as <- <-. split; [exists false; reflexivity|]. split; [exact I|]. split; [constructor|auto]. }
  destruct (kind_eqb (t_kind t) R_CURLY) eqn:K.
  { injection H as <- <-. apply kind_eqb_eq in K. split; [exists false; reflexivity|].
    split; [exact I|]. split; [constructor|]. intros _. right. exists t, b, q. auto. }
  bind H E x q1.
  assert (C' : clean ((t, false) :: q)).
  { destruct C as [C1 C2]. split; [|exact C2]. inversion C1; subst. constructor; assumption. }
  destruct (inner_step _ _ _ _ E C') as [Et [G Hd]].
  assert (Ets : (t, b) :: q = flag b (tlines x) ++ q1).
  { destruct Hd as [t0 [r0 E0]]. rewrite E0 in *. cbn [app inline] in Et. injection Et as <- ->.
    cbn [flag app]. destruct b; reflexivity. }
  assert (Cq : clean q1) by (rewrite Et in C'; exact (clean_app _ _ C')).
  destruct q1 as [|[t' mark] q2].
  { injection H as <- <-. split; [exists b; cbn [map statements concat]; rewrite (app_nil_r (tlines x)); exact Ets|].
    split; [split; [exact G|exact I]|]. split; [repeat constructor; exact Hd|discriminate]. }
  destruct (kind_eqb (t_kind t') R_CURLY) eqn:K'.
  { injection H as <- <-. split; [exists b; cbn [map statements concat]; rewrite (app_nil_r (tlines x)); exact Ets|].
    split; [split; [exact G|exact I]|]. split; [repeat constructor; exact Hd|discriminate]. }
  destruct mark; [|discriminate H]. bind H E2 l2 q3. injection H as <- <-.
  destruct (IHb _ _ _ E2 Cq) as [[b' Eq] [Gl [Hl Nl]]].
  split; [exists b|split; [split; [exact G|exact Gl]|]; split; [constructor; assumption|discriminate]].
  rewrite Ets, Eq. clear Ets. cbn [map statements]. rewrite flag_app by exact (headed_nonempty _ Hd).
  rewrite <- app_assoc. f_equal.
  destruct l2 as [|y l2].
  { exfalso. cbn [map statements flag app] in Eq. apply kind_eqb_neq in K'.
    destruct (Nl eq_refl) as [Z|[t0 [b0 [r0 [Z K0]]]]]; rewrite Z in Eq; [discriminate Eq|].
    injection Eq as -> _ _. contradiction. }
  cbn [map statements concat] in *. pose proof (Forall_inv Hl) as Hy.
  rewrite flag_app in * by exact (headed_nonempty _ Hy). rewrite <- !app_assoc. f_equal.
  destruct Hy as [t0 [r0 E0]]. rewrite E0 in *. cbn [flag app inline] in *. injection Eq as _ Eb _.
  destruct b'; [reflexivity|discriminate Eb].
Qed.

Lemma item_step : PItem (S f).
Proof.
  intros params close ts i r H C. cbn [item] in H. destruct params.
  - bind H E x q. destruct (atom_some _ _ _ E) as [l [-> [A ->]]]. pose proof (clean_app _ _ C) as C1.
    destruct (next_is EQUAL q) eqn:Ne.
    + bind1 H E1 q1. bind H E2 v q2. injection H as <- <-. eaten E1 C1 C2 tEQUAL.
      destruct (inner_step _ _ _ _ E2 C2) as [-> [Gv _]].
      split; [unfold item_lines; cbn [fst snd tlines]; rewrite <- app_assoc; reflexivity|].
      split; [split; cbn [fst snd is_atom]; auto|discriminate].
    + injection H as <- <-.
      split; [unfold item_lines; cbn [fst snd tlines]; rewrite <- app_assoc; reflexivity|].
      split; [split; cbn [fst snd is_atom]; auto|discriminate].
  - destruct (next_is COMMA ts || next_is close ts) eqn:Nc.
    + injection H as <- <-. split; [reflexivity|]. split; [split; exact I|auto].
    + bind H E x q. destruct (inner_step _ _ _ _ E C) as [-> [Gx _]]. pose proof (clean_app _ _ C) as C1.
      destruct (next_is EQUAL q) eqn:Ne.
      * destruct x as [l| | | | | | | | | |]; try discriminate H. bind1 H E1 q1.
        eaten E1 C1 C2 tEQUAL. destruct (next_is COMMA q1 || next_is close q1) eqn:N1.
        -- injection H as <- <-.
           split; [unfold item_lines; cbn [fst snd]; rewrite <- !app_assoc; reflexivity|].
           split; [split; cbn [fst snd is_atom]; auto|discriminate].
        -- bind H E2 v q2. injection H as <- <-.
           destruct (inner_step _ _ _ _ E2 C2) as [-> [Gv _]].
           split; [unfold item_lines; cbn [fst snd]; rewrite <- !app_assoc; reflexivity|].
           split; [split; cbn [fst snd is_atom]; auto|discriminate].
      * injection H as <- <-. split; [reflexivity|]. split; [split; cbn [fst snd]; auto|discriminate].
Qed.

Lemma more_step : PMore (S f).
Proof.
  intros params close ts l r H C. cbn [more_items] in H.
  bind H E i q. destruct (IHt _ _ _ _ _ E C) as [Et [Gi Ni]]. assert (C1 : clean q).
  { rewrite Et in C. exact (clean_app _ _ C). }
  destruct (next_is COMMA q) eqn:Nc.
  - bind1 H E1 q1. bind H E2 l2 q2. injection H as <- <-. eaten E1 C1 C2 tCOMMA.
    destruct (IHm _ _ _ _ _ E2 C2) as [[z [Kz ->]] [Gl [Nl _]]].
    split; [exists z; split; [exact Kz|]|].
    { rewrite Et. destruct l2 as [|i2 l2]; [contradiction|]. cbn [map listed_by_commas].
      rewrite <- !app_assoc. reflexivity. }
    split; [constructor; assumption|]. split; [discriminate|].
    intros _ _ Z. injection Z as _ ->. contradiction.
  - bind1 H E1 q1. injection H as <- <-. destruct (eat_some _ _ _ E1) as [z [Kz Ez]].
    split; [exists z; split; [exact Kz|]; rewrite Et, Ez; reflexivity|].
    split; [constructor; [assumption|constructor]|]. split; [discriminate|].
    intros -> Nx Z. injection Z as ->. specialize (Ni eq_refl). cbn in Et. subst ts.
    rewrite Nc, Nx in Ni. discriminate.
Qed.
Lemma items_step : PItems (S f).
Proof.
  intros params close ts l r H C. cbn [items] in H.
  destruct (next_is close ts) eqn:N.
  - bind1 H E q. injection H as <- <-. destruct (eat_some _ _ _ E) as [z [Kz Ez]].
    split; [exists z; split; [exact Kz|exact Ez]|]. split; [constructor|discriminate].
  - destruct (IHm _ _ _ _ _ H C) as [A [B [D F]]]. split; [exact A|]. split; [exact B|]. auto.
Qed.
End Step.

Lemma parser_sound f :
  PExpression f /\ PStart f /\ POperators f /\ PBlock f /\ PItems f /\ PMore f /\ PItem f.
Proof.
  induction f as [|f [A [B [C [D [E [F G]]]]]]].
  - repeat split; intros; try discriminate.
  - split; [exact (expression_step f B C)|]. split; [exact (start_step f A D E)|].
    split; [exact (operators_step f A C E)|]. split; [exact (block_step f A D)|].
    split; [exact (items_step f F)|]. split; [exact (more_step f F G)|exact (item_step f A)].
Qed.

Lemma parses_terms ts l : clean ts -> unmarked ts -> parses ts l ->
  ts = statements (map tlines l) /\ all_of (tgram true) l /\ Forall headed l.
Proof.
  intros C U [n H]. specialize (H n (le_n n)). destruct (parser_sound n) as [_ [_ [_ [P _]]]].
  destruct (P _ _ _ H C) as [[b E] [G [Hd _]]]. rewrite app_nil_r in E. split; [|auto].
  rewrite E in *. destruct (statements (map tlines l)) as [|[t b0] s]; [reflexivity|].
  cbn [flag unmarked] in *. destruct b; [contradiction|reflexivity].
Qed.

(** * The formatter's trees *)

Lemma by_size (P : expr -> Prop) :
  (forall e, (forall x, esize x < esize e -> P x) -> P e) -> forall e, P e.
Proof.
  intros H. assert (K : forall n e, esize e < n -> P e).
  { induction n as [|n IH]; [lia|]. intros e L. apply H. intros x Lx. apply IH. lia. }
  intros e. apply (K (S (esize e))). lia.
Qed.
Ltac smaller := cbn [esize osize list_sum fold_right]; lia.
Ltac expressions e So :=
  destruct e as [n k ts|n op a|n l op r|n l op r|n l op r|n kw ps b|n l|n a d|n v|n c t el|n nl a
    |n v s b|n c b|n b|n l|n b|n g args|n k rc l|n nm v sl|n nm]; try discriminate So.

Lemma tleft_of e : sort_of e = SoExpr -> shaped e -> tleft (term_of e) = left_least e.
Proof.
  induction e as [e IH] using by_size. intros So Sh. expressions e So; try reflexivity;
    cbn [shaped] in Sh; cbn [term_of tleft left_least].
  1-3: rewrite IH by (tauto || smaller); reflexivity.
  destruct Sh as [Sg [Sa Sha]]. destruct args; try discriminate Sa. cbn [tleft].
  rewrite IH by (tauto || smaller). reflexivity.
Qed.
Lemma tright_of e : sort_of e = SoExpr -> shaped e -> tright (term_of e) = right_least e.
Proof.
  induction e as [e IH] using by_size. intros So Sh. expressions e So; try reflexivity;
    cbn [shaped] in Sh; cbn [term_of tright right_least]; try (rewrite IH by (tauto || smaller); reflexivity).
  - destruct Sh as [Sc [St Se]]. destruct el as [el|]; [|rewrite IH by (tauto || smaller); reflexivity].
    destruct Se as [Se She]. destruct el; try discriminate Se. cbn [shaped] in She. cbn [right_least].
    rewrite IH by (tauto || smaller). reflexivity.
  - destruct Sh as [Sg [Sa Sha]]. destruct args; try discriminate Sa. reflexivity.
Qed.
Lemma twants_of e : sort_of e = SoExpr -> shaped e -> twants (term_of e) = wants_else e.
Proof.
  induction e as [e IH] using by_size. intros So Sh. expressions e So; try reflexivity;
    cbn [shaped] in Sh; cbn [term_of twants wants_else]; try (rewrite IH by (tauto || smaller); reflexivity).
  - destruct Sh as [Sc [St Se]]. destruct el as [el|]; [|reflexivity].
    destruct Se as [Se She]. destruct el; try discriminate Se. cbn [shaped] in She. cbn [wants_else].
    rewrite IH by (tauto || smaller). reflexivity.
  - destruct Sh as [Sg [Sa Sha]]. destruct args; try discriminate Sa. reflexivity.
Qed.

Lemma map_same {A B} (f g : A -> B) l : (forall x, In x l -> f x = g x) -> map f l = map g l.
Proof. apply map_ext_in. Qed.
Lemma tlines_of e : sort_of e = SoExpr -> shaped e -> tlines (term_of e) = lines e.
Proof.
  induction e as [e IH] using by_size. intros So Sh. expressions e So;
    cbn [shaped] in Sh; cbn [term_of lines].
  - reflexivity.
  - cbn [tlines]. rewrite IH by (tauto || smaller). reflexivity.
  - cbn [tlines]. rewrite !IH by (tauto || smaller). reflexivity.
  - cbn [tlines]. rewrite !IH by (tauto || smaller). reflexivity.
  - cbn [tlines]. rewrite !IH by (tauto || smaller). reflexivity.
  - destruct Sh as [[Sp Shp] Sb]. destruct ps as [| | | | | |np l| | | | | | | | | | | | |]; try discriminate Sp.
    fold param_term. rewrite fun_lines, map_map. cbn [lines app]. rewrite IH by (tauto || smaller).
    rewrite <- app_assoc. cbn [app]. do 4 f_equal.
    apply map_same. intros x Hx. destruct (all_of_in _ _ _ Shp Hx) as [Sx Shx].
    pose proof (in_sum _ _ Hx) as Lx.
    destruct x as [| | | | | | |nx a d| | | | | | | | | | | |]; try discriminate Sx.
    cbn [shaped] in Shx. destruct Shx as [Sa Sd]. unfold item_lines. cbn [param_term fst snd lines].
    cbn [esize osize] in Lx. rewrite (IH a) by (tauto || smaller). f_equal.
    destruct d as [d|]; [|reflexivity]. destruct Sd as [Sd Shd]. destruct d; try discriminate Sd.
    cbn [opt_list lines]. cbn [shaped esize osize] in *. rewrite IH by (tauto || smaller). reflexivity.
  - destruct Sh as [Sc [St Se]]. cbn [tlines]. rewrite (IH c), (IH t) by (tauto || smaller).
    destruct el as [el|]; [|reflexivity]. destruct Se as [Se She]. destruct el; try discriminate Se.
    cbn [opt_list lines]. cbn [shaped] in She. rewrite IH by (tauto || smaller). reflexivity.
  - cbn [tlines]. rewrite !IH by (tauto || smaller). reflexivity.
  - cbn [tlines]. rewrite !IH by (tauto || smaller). reflexivity.
  - cbn [tlines]. rewrite !IH by (tauto || smaller). reflexivity.
  - cbn [tlines]. rewrite map_map. do 3 f_equal. apply map_same. intros x Hx.
    destruct (all_of_in _ _ _ Sh Hx) as [Sx Shx]. pose proof (in_sum _ _ Hx) as Lx.
    apply IH; [smaller|exact Sx|exact Shx].
  - cbn [tlines]. rewrite !IH by (tauto || smaller). reflexivity.
  - destruct Sh as [Sg [Sa Sha]]. destruct args as [| | | | | | | | | | | | | | | | |na k rc l| |]; try discriminate Sa.
    fold arg_term. rewrite apply_lines, map_map. rewrite IH by (tauto || smaller). cbn [lines]. do 4 f_equal.
    apply map_same. intros x Hx. destruct (all_of_in _ _ _ Sha Hx) as [Sx Shx].
    pose proof (in_sum _ _ Hx) as Lx.
    destruct x as [| | | | | | | | | | | | | | | | | |nx nm v sl|]; try discriminate Sx.
    cbn [shaped] in Shx. destruct Shx as [Sn Sv]. unfold item_lines. cbn [arg_term fst snd lines].
    cbn [esize osize] in Lx. f_equal.
    + destruct nm as [nm|]; [|reflexivity]. destruct Sn as [Sn Shn]. destruct nm; try discriminate Sn.
      cbn [opt_list lines]. cbn [shaped esize osize] in *. rewrite IH by (tauto || smaller). reflexivity.
    + destruct v as [v|]; [|reflexivity]. cbn [opt_list opt_all osize] in *.
      rewrite IH by (tauto || smaller). reflexivity.
Qed.

(** [$] and [@], [::] and [:::] are where they belong. *)
Definition joint_kinds (e : expr) : Prop :=
  match e with
  | EExtract _ _ op _ => infix_level (t_kind op) = Some LEVEL_CALL
  | ENamespace _ _ op _ => infix_level (t_kind op) = Some LEVEL_NAMESPACE
  | _ => True
  end.
Lemma is_leaf_atom e : sort_of e = SoExpr -> shaped e -> is_atom (term_of e) -> is_leaf e.
Proof.
  intros So Sh. expressions e So; try exact (fun x => x).
  cbn [shaped] in Sh. destruct Sh as [_ [Sa _]]. destruct args; try discriminate Sa. exact (fun x => x).
Qed.
Lemma all_of_Forall {A} (Q : A -> Prop) l : (forall x, In x l -> Q x) -> all_of Q l.
Proof. induction l as [|x l IH]; intros H; [exact I|]. split; [apply H; left; reflexivity|apply IH; intros y Hy; apply H; right; exact Hy]. Qed.

Lemma tgram_of e : sort_of e = SoExpr -> shaped e -> everywhere joint_kinds e ->
  forall eq, tgram eq (term_of e) -> grammatical eq e.
Proof.
  induction e as [e IH] using by_size. intros So Sh Jo eq G. expressions e So;
    cbn [shaped] in Sh; cbn [everywhere] in Jo; destruct Jo as [J0 Jo]; cbn [joint_kinds] in J0;
    cbn [grammatical]; cbn [term_of tgram] in G.
  - exact G.
  - destruct G as [[lv [E L]] G]. rewrite tleft_of in L by tauto.
    split; [exists lv; auto|]. apply IH; try tauto; smaller.
  - destruct G as [[lv [E [L1 [L2 Cm]]]] [Q [G1 G2]]].
    rewrite tright_of in L1 by tauto. rewrite tleft_of in L2 by tauto.
    rewrite comparison_term in Cm by tauto.
    split; [exists lv; auto|]. split; [exact Q|]. repeat split; apply IH; try tauto; smaller.
  - destruct G as [[lv [E [L1 [L2 Cm]]]] [Q [G1 G2]]].
    rewrite tright_of in L1 by tauto. rewrite tleft_of in L2 by tauto.
    rewrite comparison_term in Cm by tauto.
    split; [exists lv; auto|]. split; [exact Q|].
    split; [apply IH; try tauto; smaller|]. split; [apply IH; try tauto; smaller|exact J0].
  - destruct G as [[lv [E [L1 [L2 Cm]]]] [Q [G1 G2]]].
    rewrite tright_of in L1 by tauto. rewrite tleft_of in L2 by tauto.
    rewrite comparison_term in Cm by tauto.
    split; [exists lv; auto|]. split; [exact Q|].
    split; [apply IH; try tauto; smaller|]. split; [apply IH; try tauto; smaller|exact J0].
  - destruct Sh as [[Sp Shp] Sb]. destruct ps as [| | | | | |np l| | | | | | | | | | | | |]; try discriminate Sp.
    fold param_term in G. destruct G as [K [Gp [Gb Lb]]]. rewrite tleft_of in Lb by tauto.
    split; [exact K|]. split; [|split; [apply IH; try tauto; smaller|exact Lb]].
    cbn [grammatical]. apply all_of_Forall. intros x Hx.
    destruct (all_of_in _ _ _ Shp Hx) as [Sx Shx]. pose proof (in_sum _ _ Hx) as Lx.
    pose proof (all_of_in _ _ _ Gp (in_map param_term _ _ Hx)) as Gx.
    destruct Jo as [Jp _]. cbn [everywhere] in Jp. pose proof (all_of_in _ _ _ (proj2 Jp) Hx) as Jx.
    destruct x as [| | | | | | |nx a d| | | | | | | | | | | |]; try discriminate Sx.
    cbn [shaped] in Shx. destruct Shx as [Sa Sd]. cbn [param_term] in Gx. destruct Gx as [[Aa Ga] Gd].
    cbn [everywhere] in Jx. destruct Jx as [_ [Ja Jd]]. cbn [esize osize] in Lx.
    cbn [grammatical]. split; [apply is_leaf_atom; tauto|].
    split; [apply IH; try tauto; smaller|].
    destruct d as [d|]; [|exact I]. destruct Sd as [Sd Shd]. destruct d; try discriminate Sd.
    cbn [shaped esize osize opt_all everywhere grammatical] in *. apply IH; try tauto; smaller.
  - destruct Sh as [Sc [St Se]]. destruct G as [Gc [Gt [Lt [W Ge]]]].
    rewrite tleft_of in Lt by tauto. rewrite twants_of in W by tauto.
    split; [apply IH; try tauto; smaller|]. split; [apply IH; try tauto; smaller|].
    split; [exact Lt|]. destruct el as [el|]; [|split; [congruence|exact I]].
    destruct Se as [Se She]. destruct el; try discriminate Se.
    split; [intros _; apply W; discriminate|]. cbn [shaped opt_all everywhere grammatical] in *.
    destruct Ge as [Ge Le]. rewrite tleft_of in Le by tauto. split; [apply IH; try tauto; smaller|exact Le].
  - destruct G as [Av [Gv [Gs [Gb Lb]]]]. rewrite tleft_of in Lb by tauto.
    split; [apply is_leaf_atom; tauto|]. split; [apply IH; try tauto; smaller|].
    split; [apply IH; try tauto; smaller|]. split; [apply IH; try tauto; smaller|exact Lb].
  - destruct G as [Gc [Gb Lb]]. rewrite tleft_of in Lb by tauto.
    split; [apply IH; try tauto; smaller|]. split; [apply IH; try tauto; smaller|exact Lb].
  - destruct G as [Gb Lb]. rewrite tleft_of in Lb by tauto.
    split; [apply IH; try tauto; smaller|exact Lb].
  - apply all_of_Forall. intros x Hx. destruct (all_of_in _ _ _ Sh Hx) as [Sx Shx].
    pose proof (in_sum _ _ Hx) as Lx. apply IH; [smaller|exact Sx|exact Shx|exact (all_of_in _ _ _ Jo Hx)|].
    exact (all_of_in _ _ _ G (in_map term_of _ _ Hx)).
  - apply IH; try tauto; smaller.
  - destruct Sh as [Sg [Sa Sha]]. destruct args as [| | | | | | | | | | | | | | | | |na k rc l| |]; try discriminate Sa.
    fold arg_term in G. destruct G as [Gf [Lf [Ne Ga]]]. rewrite tright_of in Lf by tauto.
    split; [apply IH; try tauto; smaller|]. split; [exact Lf|]. cbn [grammatical]. split.
    { intros nn sl ->. apply Ne. reflexivity. }
    apply all_of_Forall. intros x Hx.
    destruct (all_of_in _ _ _ Sha Hx) as [Sx Shx]. pose proof (in_sum _ _ Hx) as Lx.
    pose proof (all_of_in _ _ _ Ga (in_map arg_term _ _ Hx)) as Gx.
    destruct Jo as [_ Jp]. cbn [everywhere] in Jp. pose proof (all_of_in _ _ _ (proj2 Jp) Hx) as Jx.
    destruct x as [| | | | | | | | | | | | | | | | | |nx nm v sl|]; try discriminate Sx.
    cbn [shaped] in Shx. destruct Shx as [Sn Sv]. cbn [arg_term] in Gx. destruct Gx as [Gn Gv].
    cbn [everywhere] in Jx. destruct Jx as [_ [Jn Jv]]. cbn [esize osize] in Lx.
    cbn [grammatical]. split.
    + destruct nm as [nm|]; [|exact I]. destruct Sn as [Sn Shn]. destruct nm; try discriminate Sn.
      cbn [shaped esize osize opt_all everywhere grammatical] in *. destruct Gn as [An Gn].
      split; [apply is_leaf_atom; tauto|]. apply IH; try tauto; smaller.
    + destruct v as [v|]; [|exact I]. cbn [opt_all osize] in *. apply IH; try tauto; smaller.
Qed.

(** R's parser builds a tree from a file: then the tree is grammatical and the
    file consists of its tokens. *)
Lemma parses_trees ts es :
  clean ts -> unmarked ts -> all_of (fun x => sort_of x = SoExpr /\ shaped x) es ->
  all_of (everywhere joint_kinds) es -> parses ts (map term_of es) ->
  ts = program es /\ all_of (grammatical true) es.
Proof.
  intros C U Sh J P. destruct (parses_terms _ _ C U P) as [E [G _]]. split.
  - rewrite E. unfold program. rewrite map_map. f_equal. apply map_same. intros x Hx.
    destruct (all_of_in _ _ _ Sh Hx). apply tlines_of; assumption.
  - apply all_of_Forall. intros x Hx. destruct (all_of_in _ _ _ Sh Hx).
    apply tgram_of; [assumption|assumption|exact (all_of_in _ _ _ J Hx)|].
    exact (all_of_in _ _ _ G (in_map term_of _ _ Hx)).
Qed.
