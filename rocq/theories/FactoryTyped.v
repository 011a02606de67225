(** Proofs for FactoryProps.v, continued: a complete tree is read. *)
From Coq Require Import List NArith Bool Arith Lia.
From Verif Require Import Text TextFacts SyntaxKind ParseModel ParseSpec ParseTree
  FmtTree FmtSpec FmtTableSpec CommentsModel CommentsSpec AstModel AstReads AstProofs FrontProofs
  TotalSpec FactoryModel FactorySpec FactoryProofs.
Import ListNotations.

Fixpoint skel_syn (s : syn) : skel :=
  match s with Node k cs => KNode k (map skel_syn cs) | Tok x => KTok (p_kind x) end.
Definition syn_kind (s : syn) : kind := skel_kind (skel_syn s).

Lemma open_skel g : forall s, open_green g = Some s -> skel_syn s = skel_of g.
Proof.
  induction g as [k cs IH|t] using green_ind2; intros s H.
  - rewrite open_node in H. destruct (open_all cs) as [ss|] eqn:E; [|discriminate].
    injection H as <-. cbn [skel_syn skel_of]. f_equal. revert ss E.
    induction IH as [|c r Hc _ IHr]; intros ss E; cbn in E.
    + injection E as <-. reflexivity.
    + destruct (open_green c) as [y|]; [|discriminate].
      destruct (open_all r) as [z|]; [|discriminate]. injection E as <-.
      cbn [map]. rewrite (Hc y eq_refl), (IHr z eq_refl). reflexivity.
  - cbn in *. destruct (take_apart t) as [p|] eqn:E; [|discriminate]. injection H as <-.
    cbn. f_equal. unfold take_apart in E. destruct (cut (tk_leading t) (tk_text t)) as [[a b]|]; [|discriminate].
    destruct (split_at (blen b - total (tk_trailing t)) b) as [[u v]|]; [|discriminate].
    destruct (cut (tk_trailing t) v) as [[w [|]]|]; try discriminate.
    injection E as <-. reflexivity.
Qed.

Definition kind_sort (k : kind) : option sort :=
  match form_of k with
  | FoParams => Some SoParams | FoParam => Some SoParam | FoDefault => Some SoDefault
  | FoElse => Some SoElse | FoArgs _ => Some SoArgs | FoArg => Some SoArg | FoName => Some SoName
  | FoNone => None | _ => Some SoExpr
  end.
Definition well_spelled (x : parts) : Prop :=
  match spelling (p_kind x) with Some s => p_own x = s | None => True end.
Definition ops := everywhere known_operator.

Section Typed.
Variable pl : list placement.

Definition readable (s : syn) : Prop :=
  complete (skel_syn s) = true -> Forall well_spelled (syn_tokens s) ->
  forall so, kind_sort (syn_kind s) = Some so ->
  forall p g, exists e, typed pl p g s = Some e /\ sort_of e = so /\ ops e /\
    (forall c, form_of (syn_kind s) = FoArgs c -> args_of_kind c e = true).

(** Children by their kinds. *)
Definition tokens_only (l : list kind) : bool :=
  forallb (fun k => match ungram k with None => true | Some _ => false end) l.
Lemma child_tok l c : tokens_only l = true -> one_of l (syn_kind c) = true ->
  complete (skel_syn c) = true -> exists x, c = Tok x /\ In (p_kind x) l.
Proof.
  intros T O C. apply one_of_true in O. unfold tokens_only in T. rewrite forallb_forall in T.
  specialize (T _ O). destruct c as [k cs|x]; [|exists x; auto].
  cbn in C. unfold syn_kind in T. cbn in T. destruct (ungram k); discriminate.
Qed.
Definition sorts_only (so : sort) (l : list kind) : bool :=
  forallb (fun k => match kind_sort k with Some s => sort_eqb s so | None => false end) l.
Lemma sort_eqb_eq a b : sort_eqb a b = true -> a = b.
Proof. destruct a, b; (reflexivity || discriminate). Qed.
Lemma sort_eqb_refl a : sort_eqb a a = true.
Proof. destruct a; reflexivity. Qed.
Lemma child_node so l c : readable c -> sorts_only so l = true -> one_of l (syn_kind c) = true ->
  complete (skel_syn c) = true -> Forall well_spelled (syn_tokens c) ->
  forall p g, exists e, typed pl p g c = Some e /\ sort_of e = so /\ ops e /\
    (forall k, form_of (syn_kind c) = FoArgs k -> args_of_kind k e = true).
Proof.
  intros R T O C S p g. apply one_of_true in O. unfold sorts_only in T. rewrite forallb_forall in T.
  specialize (T _ O). destruct (kind_sort (syn_kind c)) as [s|] eqn:K; [|discriminate].
  apply sort_eqb_eq in T. subst s. exact (R C S so K p g).
Qed.
Lemma child_sorted so l c : readable c -> sorts_only so l = true -> one_of l (syn_kind c) = true ->
  complete (skel_syn c) = true -> Forall well_spelled (syn_tokens c) ->
  forall p g, exists e, sorted so (typed pl p g c) = Some e /\ sort_of e = so /\ ops e /\
    (forall k, form_of (syn_kind c) = FoArgs k -> args_of_kind k e = true).
Proof.
  intros R T O C S p g. destruct (child_node so l c R T O C S p g) as [e [E [Q [W A]]]].
  exists e. rewrite E. cbn [sorted]. rewrite Q, sort_eqb_refl. auto.
Qed.
Lemma is_tok_spelled t x s : spelling (t_kind t) = Some s -> t_text t = s ->
  In (p_kind x) [t_kind t] -> well_spelled x -> is_tok t x = true.
Proof.
  intros E T [K|[]] W. unfold is_tok, well_spelled in *. rewrite <- K in *. rewrite E in W.
  rewrite kind_eqb_refl, W, <- T. cbn. apply text_eqb_eq. reflexivity.
Qed.

(** Lists. *)
Definition lists_of (so : sort) (p : path) := fix go (i g : nat) (l : list syn) : option (list expr) :=
  match l with
  | [] => Some []
  | x :: r =>
    match sorted so (typed pl (i :: 1 :: p) g x) with
    | Some e => match go (S i) (g + width x) r with Some es => Some (e :: es) | None => None end
    | None => None
    end
  end.
Definition parts_of (so : sort) (p : path) := fix go (i g : nat) (l : list syn) : option (list expr) :=
  match l with
  | [] => Some []
  | [x] => match sorted so (typed pl (i :: 1 :: p) g x) with Some e => Some [e] | None => None end
  | x :: Tok c :: ((_ :: _) as r) =>
    check (is_tok tCOMMA c)
      match sorted so (typed pl (i :: 1 :: p) g x) with
      | Some e =>
        match go (S (S i)) (g + width x + 1) r with
        | Some es => Some (with_separator c e :: es)
        | None => None
        end
      | None => None
      end
  | _ => None
  end.
Lemma parts_cons so p i g x c d r : parts_of so p i g (x :: Tok c :: d :: r) =
  check (is_tok tCOMMA c)
    match sorted so (typed pl (i :: 1 :: p) g x) with
    | Some e =>
      match parts_of so p (S (S i)) (g + width x + 1) (d :: r) with
      | Some es => Some (with_separator c e :: es)
      | None => None
      end
    | None => None
    end.
Proof. reflexivity. Qed.
Lemma spelled_cons c cs : Forall well_spelled (flat_map syn_tokens (c :: cs)) ->
  Forall well_spelled (syn_tokens c) /\ Forall well_spelled (flat_map syn_tokens cs).
Proof. intro H. apply Forall_app in H. exact H. Qed.
Lemma lists_total so ks p cs : sorts_only so ks = true -> Forall readable cs ->
  forallb (one_of ks) (map syn_kind cs) = true -> forallb (fun c => complete (skel_syn c)) cs = true ->
  Forall well_spelled (flat_map syn_tokens cs) ->
  forall i g, exists es, lists_of so p i g cs = Some es /\ all_of ops es.
Proof.
  intros T R. induction R as [|c cs Rc R IH]; intros O C S i g; [exists []; cbn; auto|].
  cbn [map forallb] in O, C. apply andb_prop in O as [O1 O2]. apply andb_prop in C as [C1 C2].
  apply spelled_cons in S as [S1 S2]. cbn [lists_of].
  destruct (child_sorted so ks c Rc T O1 C1 S1 (i :: 1 :: p) g) as [e [E [_ [W _]]]]. rewrite E.
  destruct (IH O2 C2 S2 (S i) (g + width c)) as [es [Es Ws]]. fold (lists_of so p). rewrite Es.
  exists (e :: es). cbn. auto.
Qed.
Lemma ops_separator c e : ops e -> ops (with_separator c e).
Proof. destruct e; auto. Qed.
Lemma parts_total so ks p cs : sorts_only so ks = true -> Forall readable cs ->
  (cs = [] \/ parted ks COMMA (map syn_kind cs) = true) ->
  forallb (fun c => complete (skel_syn c)) cs = true ->
  Forall well_spelled (flat_map syn_tokens cs) ->
  forall i g, exists es, parts_of so p i g cs = Some es /\ all_of ops es.
Proof.
  intros T. remember (List.length cs) as n eqn:L.
  assert (L' : List.length cs <= n) by lia. clear L. revert cs L'.
  induction n as [|n IH]; intros cs L R O C S i g.
  { destruct cs; [|cbn in L; lia]. exists []. cbn. auto. }
  destruct O as [->|O]; [exists []; cbn; auto|].
  destruct cs as [|c [|s cs]]; [discriminate O| |].
  - cbn [map parted forallb] in O, C. rewrite andb_true_r in O, C.
    inversion R as [|? ? Rc _]; subst. apply spelled_cons in S as [S1 _]. cbn [parts_of].
    destruct (child_sorted so ks c Rc T O C S1 (i :: 1 :: p) g) as [e [E [_ [W _]]]]. rewrite E.
    exists [e]. cbn. auto.
  - cbn [map parted forallb] in O, C. rewrite !andb_true_iff in O, C.
    destruct O as [O1 [O2 O3]]. destruct C as [C1 [C2 C3]].
    inversion R as [|? ? Rc R']; subst. inversion R' as [|? ? _ R'']; subst.
    apply spelled_cons in S as [S1 S2]. apply spelled_cons in S2 as [S2 S3].
    destruct (child_tok [COMMA] s eq_refl) as [x [-> Ix]]; [|exact C2|].
    { apply kind_eqb_eq in O2. rewrite O2. reflexivity. }
    destruct cs as [|d cs]; [discriminate O3|].
    rewrite parts_cons.
    rewrite (is_tok_spelled tCOMMA x _ eq_refl eq_refl Ix) by (inversion S2; assumption).
    cbn [check].
    destruct (child_sorted so ks c Rc T O1 C1 S1 (i :: 1 :: p) g) as [e [E [_ [W _]]]]. rewrite E.
    destruct (IH (d :: cs) ltac:(cbn in *; lia) R'' (or_intror O3) C3 S3 (Datatypes.S (Datatypes.S i)) (g + width c + 1)) as [es [Es Ws]].
    rewrite Es. eexists. split; [reflexivity|]. cbn. split; [apply ops_separator, W|exact Ws].
Qed.

Lemma map_skel_kind cs : map skel_kind (map skel_syn cs) = map syn_kind cs.
Proof. apply map_map. Qed.
Lemma forallb_skel cs : forallb complete (map skel_syn cs) = forallb (fun c => complete (skel_syn c)) cs.
Proof. induction cs as [|c cs IH]; [reflexivity|]. cbn. rewrite IH. reflexivity. Qed.

Lemma fill_must l ps k ks : fill (Must l :: ps) (k :: ks) = one_of l k && fill ps ks.
Proof. reflexivity. Qed.
Lemma fill_may l ps k ks :
  fill (May l :: ps) (k :: ks) = if one_of l k then fill ps ks else fill ps (k :: ks).
Proof. reflexivity. Qed.
Lemma child_list lk r c : ungram lk = Some r -> one_of [lk] (syn_kind c) = true ->
  complete (skel_syn c) = true ->
  exists l, c = Node lk l /\ obeys r (map syn_kind l) = true /\
    forallb (fun c => complete (skel_syn c)) l = true.
Proof.
  intros U O C. apply one_of_true in O as [O|[]]. destruct c as [k l|x].
  - unfold syn_kind in O. cbn in O. subst k. cbn [skel_syn complete] in C. rewrite U in C.
    rewrite map_skel_kind, forallb_skel in C. apply andb_prop in C. exists l. auto.
  - unfold syn_kind in O. cbn in O, C. rewrite <- O, U in C. discriminate.
Qed.
Lemma parted_or ks by_ l : (match l with [] => true | _ => parted ks by_ l end) = true ->
  l = [] \/ parted ks by_ l = true.
Proof. destruct l; auto. Qed.

(** Take the next child off a node. *)
Ltac next O C S R :=
  match type of O with
  | fill (Must _ :: _) (map syn_kind ?cs) = true =>
    let c := fresh "c" in let cs' := fresh "cs" in
    destruct cs as [|c cs']; [discriminate O|];
    rewrite map_cons, fill_must in O; cbn [forallb] in C;
    let Oc := fresh "Oc" in let Cc := fresh "Cc" in let Sc := fresh "Sc" in let Rc := fresh "Rc" in
    apply andb_prop in O as [Oc O]; apply andb_prop in C as [Cc C];
    apply spelled_cons in S as [Sc S];
    let R' := fresh "R" in
    inversion R as [|? ? Rc R']; subst; clear R; rename R' into R;
    first
      [ let x := fresh "x" in let Ix := fresh "Ix" in
        match type of Oc with
        | one_of ?l _ = true =>
          destruct (child_tok l c eq_refl Oc Cc) as [x [-> Ix]]
        end;
        clear Oc Cc Rc; apply Forall_inv in Sc
      | idtac ]
  | fill [] (map syn_kind ?cs) = true => destruct cs; [clear O C S R|discriminate O]
  end.
(** Read a child. *)
Ltac read so :=
  match goal with
  | Oc : one_of ?l (syn_kind ?c) = true, Cc : complete (skel_syn ?c) = true,
    Sc : Forall well_spelled (syn_tokens ?c), Rc : readable ?c /\ _ |-
    context [sorted so (typed pl ?p ?g ?c)] =>
    let e := fresh "e" in let E := fresh "E" in let W := fresh "W" in let A := fresh "A" in
    let Q := fresh "Q" in
    destruct (child_sorted so l c (proj1 Rc) eq_refl Oc Cc Sc p g) as [e [E [Q [W A]]]];
    rewrite E; cbn iota beta
  end.
Ltac fixed :=
  repeat match goal with
  | Ix : In (p_kind ?x) [_], S : well_spelled ?x |- context [is_tok ?t ?x] =>
    rewrite (is_tok_spelled t x _ eq_refl eq_refl Ix S)
  end;
  cbn [andb check].
Ltac done_ :=
  eexists; split; [reflexivity|]; split; [reflexivity|]; split;
  [unfold ops in *; cbn [everywhere known_operator opt_all]; tauto|intros ? ?; discriminate].
Ltac call_case k :=
  match goal with
  | O : fill _ (map syn_kind ?cs) = true, C : forallb _ ?cs = true, S : Forall well_spelled _,
    R : Forall _ ?cs |- _ =>
    repeat next O C S R; cbn [typed form_of]; read SoExpr; read SoArgs
  end;
  match goal with
  | A : forall c, form_of (syn_kind ?a) = FoArgs c -> args_of_kind c ?e = true,
    Oc : one_of [k] (syn_kind ?a) = true |- context [check (args_of_kind ?b ?e) _] =>
    assert (args_of_kind b e = true) as ->
      by (apply A; apply one_of_true in Oc as [Oc|[]]; rewrite <- Oc; reflexivity)
  end;
  cbn [check]; done_.
Ltac list_case O C S R lk so ks :=
  repeat next O C S R;
  match goal with
  | Oc : one_of [lk] (syn_kind ?c) = true, Cc : complete (skel_syn ?c) = true,
    Sc : Forall well_spelled (syn_tokens ?c),
    Rc : readable ?c /\ _ |- context [typed pl ?p ?g _] =>
    let l := fresh "l" in let Ol := fresh "Ol" in let Cl := fresh "Cl" in let Rl := fresh "Rl" in
    destruct (child_list lk _ c eq_refl Oc Cc) as [l [-> [Ol Cl]]]; destruct Rc as [_ Rl];
    cbn [obeys] in Ol;
    assert (Ol' : l = [] \/ parted ks COMMA (map syn_kind l) = true)
      by (apply parted_or in Ol as [Ol|Ol]; [left; destruct l; [reflexivity|discriminate]|auto]);
    let es := fresh "es" in let E := fresh "E" in let W := fresh "W" in
    destruct (parts_total so ks p l eq_refl Rl Ol' Cl Sc 0 (g + 1)) as [es [E W]];
    cbn [typed form_of l_token r_token]; fixed; change (kind_eqb lk lk) with true;
    cbn [check]; fold (parts_of so p); rewrite E
  end.

Lemma all_readable s : readable s.
Proof.
  induction s as [x|k cs R] using syn_ind2.
  { intros C _ so K. unfold syn_kind in K. cbn in C, K. exfalso.
    destruct (p_kind x); discriminate. }
  intros C S so K p g. unfold syn_kind in K. cbn [skel_syn skel_kind] in K.
  cbn [skel_syn complete] in C. rewrite map_skel_kind, forallb_skel in C.
  unfold syn_kind. cbn [skel_syn skel_kind].
  destruct (ungram k) as [r|] eqn:U; [|discriminate]. apply andb_prop in C as [O C].
  cbn [syn_tokens] in S.
  destruct k; try discriminate U; try discriminate K; injection U as <-; injection K as <-;
    cbn [obeys] in O.
  all: try solve [repeat next O C S R; cbn [typed form_of]; fixed; repeat read SoExpr; done_].
  all: try solve [repeat next O C S R; cbn [typed form_of leaf_tokens]; done_].
  - repeat next O C S R; cbn [typed form_of]; fixed; repeat read SoExpr.
    eexists; split; [reflexivity|]; split; [reflexivity|]; split; [|intros ? ?; discriminate].
    unfold ops in *; cbn [everywhere known_operator]. split; [|tauto]. cbn [token_of t_kind tk].
    clear -Ix. repeat (destruct Ix as [<-|Ix]; [reflexivity|]). destruct Ix.
  - repeat next O C S R; cbn [typed form_of]; fixed. read SoParams. read SoExpr. done_.
  - call_case R_CALL_ARGUMENTS.
  - call_case R_SUBSET_ARGUMENTS.
  - call_case R_SUBSET2_ARGUMENTS.
  - list_case O C S R R_PARAMETER_LIST SoParam [R_PARAMETER].
    eexists; split; [reflexivity|]; split; [reflexivity|]; split; [|intros ? ?; discriminate].
    split; [exact I|exact W].
  - (* R_PARAMETER *)
    next O C S R. match type of O with fill _ (map syn_kind ?l) = _ => destruct l as [|d [|]] end.
    + cbn [typed form_of]. read SoExpr. done_.
    + cbn [map] in O. rewrite fill_may in O.
      destruct (one_of [R_PARAMETER_DEFAULT] (syn_kind d)) eqn:Od; [|discriminate O].
      cbn [forallb] in C. rewrite andb_true_r in C. apply spelled_cons in S as [Sd _].
      apply Forall_inv in R. cbn [typed form_of]. read SoExpr. read SoDefault. done_.
    + cbn [map] in O. rewrite fill_may in O.
      destruct (one_of [R_PARAMETER_DEFAULT] (syn_kind d)); discriminate O.
  - (* R_IF_STATEMENT *)
    do 5 next O C S R. match type of O with fill _ (map syn_kind ?l) = _ => destruct l as [|d [|]] end.
    + cbn [typed form_of]. fixed. repeat read SoExpr. done_.
    + cbn [map] in O. rewrite fill_may in O.
      destruct (one_of [R_ELSE_CLAUSE] (syn_kind d)) eqn:Od; [|discriminate O].
      cbn [forallb] in C. rewrite andb_true_r in C. apply spelled_cons in S as [Sd _].
      apply Forall_inv in R. cbn [typed form_of]. fixed. repeat read SoExpr. read SoElse. done_.
    + cbn [map] in O. rewrite fill_may in O.
      destruct (one_of [R_ELSE_CLAUSE] (syn_kind d)); discriminate O.
  - (* R_ARGUMENT *)
    destruct cs as [|a [|v [|]]].
    + cbn [typed form_of]. done_.
    + cbn [map] in O. rewrite fill_may in O.
      cbn [forallb] in C. rewrite andb_true_r in C. apply spelled_cons in S as [Sd _].
      apply Forall_inv in R. cbn [typed form_of].
      destruct (one_of [R_ARGUMENT_NAME_CLAUSE] (syn_kind a)) eqn:Oa.
      * destruct (child_node SoName [R_ARGUMENT_NAME_CLAUSE] a (proj1 R) eq_refl Oa C Sd (0 :: p) g) as [e [E [Q [W _]]]].
        rewrite E, Q. done_.
      * rewrite fill_may in O. destruct (one_of expressions (syn_kind a)) eqn:Oe; [|discriminate O].
        destruct (child_node SoExpr expressions a (proj1 R) eq_refl Oe C Sd (0 :: p) g) as [e [E [Q [W _]]]].
        rewrite E, Q. done_.
    + cbn [map] in O. rewrite fill_may in O.
      cbn [forallb] in C. rewrite andb_true_r in C. apply andb_prop in C as [Ca Cv].
      apply spelled_cons in S as [Sa S]. apply spelled_cons in S as [Sv _].
      inversion R as [|? ? Ra R']; subst. apply Forall_inv in R'. cbn [typed form_of].
      destruct (one_of [R_ARGUMENT_NAME_CLAUSE] (syn_kind a)) eqn:Oa.
      * rewrite fill_may in O. destruct (one_of expressions (syn_kind v)) eqn:Ov; [|discriminate O].
        read SoName. read SoExpr. done_.
      * rewrite fill_may in O. destruct (one_of expressions (syn_kind a)); discriminate O.
    + exfalso. cbn [map] in O. rewrite fill_may in O.
      destruct (one_of [R_ARGUMENT_NAME_CLAUSE] (syn_kind a)); rewrite fill_may in O;
        [destruct (one_of expressions (syn_kind v))|destruct (one_of expressions (syn_kind a))];
        discriminate O.
  - (* braces *)
    repeat next O C S R.
    destruct (child_list R_EXPRESSION_LIST _ c eq_refl Oc Cc) as [l [-> [Ol Cl]]].
    destruct Rc as [_ Rl]. cbn [obeys] in Ol.
    destruct (lists_total SoExpr expressions p l eq_refl Rl Ol Cl Sc0 0 (g + 1)) as [es [E W]].
    cbn [typed form_of]. fixed. change (kind_eqb R_EXPRESSION_LIST R_EXPRESSION_LIST) with true.
    cbn [check]. fold (lists_of SoExpr p). rewrite E.
    eexists; split; [reflexivity|]; split; [reflexivity|]; split; [|intros ? ?; discriminate].
    split; [exact I|exact W].
  - (* strings *)
    next O C S R.
    match type of O with fill _ (map syn_kind ?l) = _ => destruct l as [|d [|d' [|]]] end.
    + discriminate O.
    + cbn [map] in O. rewrite fill_may in O.
      destruct (one_of [STRING_CONTENT] (syn_kind d)); [discriminate O|].
      rewrite fill_must in O. cbn [fill] in O. rewrite andb_true_r in O.
      cbn [forallb] in C. rewrite andb_true_r in C.
      destruct (child_tok [STRING_CLOSE] d eq_refl O C) as [z [-> _]].
      cbn [typed form_of leaf_tokens]. done_.
    + cbn [map] in O. rewrite fill_may in O.
      destruct (one_of [STRING_CONTENT] (syn_kind d)) eqn:Od;
        [|rewrite fill_must in O; cbn [fill] in O; rewrite andb_false_r in O; discriminate O].
      cbn [forallb] in C. apply andb_prop in C as [Cd C]. apply spelled_cons in S as [Sd S].
      destruct (child_tok [STRING_CONTENT] d eq_refl Od Cd) as [y [-> _]].
      rewrite fill_must in O. cbn [fill] in O. rewrite andb_true_r in O.
      cbn [forallb] in C. rewrite andb_true_r in C.
      destruct (child_tok [STRING_CLOSE] d' eq_refl O C) as [z [-> _]]. cbn [typed form_of leaf_tokens]. done_.
    + exfalso. cbn [map] in O. rewrite fill_may in O.
      destruct (one_of [STRING_CONTENT] (syn_kind d)); rewrite fill_must in O; cbn [fill] in O;
        rewrite andb_false_r in O; discriminate O.
  - list_case O C S R R_ARGUMENT_LIST SoArg [R_ARGUMENT].
    eexists; split; [reflexivity|]; split; [reflexivity|]; split;
      [split; [exact I|exact W]|intros ? H; injection H as <-; reflexivity].
  - list_case O C S R R_ARGUMENT_LIST SoArg [R_ARGUMENT].
    eexists; split; [reflexivity|]; split; [reflexivity|]; split;
      [split; [exact I|exact W]|intros ? H; injection H as <-; reflexivity].
  - list_case O C S R R_ARGUMENT_LIST SoArg [R_ARGUMENT].
    eexists; split; [reflexivity|]; split; [reflexivity|]; split;
      [split; [exact I|exact W]|intros ? H; injection H as <-; reflexivity].
Qed.

(** A list of expressions. *)
Lemma typed_all_total q cs : forallb (one_of expressions) (map syn_kind cs) = true ->
  forallb (fun c => complete (skel_syn c)) cs = true ->
  Forall well_spelled (flat_map syn_tokens cs) ->
  forall i g, exists es, typed_all pl q i g cs = Some es /\ all_of ops es.
Proof.
  induction cs as [|c cs IH]; intros O C S i g; [exists []; cbn; auto|].
  cbn [map forallb] in O, C. apply andb_prop in O as [O1 O2]. apply andb_prop in C as [C1 C2].
  apply spelled_cons in S as [S1 S2]. cbn [typed_all].
  destruct (child_sorted SoExpr expressions c (all_readable c) eq_refl O1 C1 S1 (i :: q) g)
    as [e [E [_ [W _]]]]. rewrite E.
  destruct (IH O2 C2 S2 (Datatypes.S i) (g + width c)) as [es [Es Ws]]. rewrite Es.
  exists (e :: es). cbn. auto.
Qed.

Theorem root_readable s : complete (skel_syn s) = true -> syn_kind s = R_ROOT ->
  Forall well_spelled (syn_tokens s) ->
  exists r, typed_root pl s = Some r /\ all_of ops (r_exprs r).
Proof.
  intros C K S. destruct s as [k cs|x]; [|unfold syn_kind in K; cbn in C, K; rewrite K in C; discriminate].
  unfold syn_kind in K. cbn in K. subst k.
  cbn [skel_syn complete ungram] in C. rewrite map_skel_kind, forallb_skel in C.
  apply andb_prop in C as [O C]. cbn [obeys] in O. cbn [syn_tokens] in S.
  destruct cs as [|a cs]; [discriminate O|]. rewrite map_cons, fill_may in O.
  assert (R : Forall (fun c => readable c /\ True) (a :: cs)).
  { apply Forall_forall. intros y _. split; [apply all_readable|exact I]. }
  destruct (one_of [UNICODE_BOM] (syn_kind a)) eqn:Oa.
  - cbn [forallb] in C. apply andb_prop in C as [Ca C]. apply spelled_cons in S as [_ S].
    inversion R as [|? ? _ R']; subst.
    destruct (child_tok [UNICODE_BOM] a eq_refl Oa Ca) as [b [-> [Kb|[]]]].
    next O C S R'. next O C S R'. next O C S R'.
    cbn [typed_root]. change (kind_eqb R_ROOT R_ROOT) with true. cbn iota.
    destruct (child_list R_EXPRESSION_LIST _ c eq_refl Oc Cc) as [l [-> [Ol Cl]]].
    destruct (typed_all_total [1] l Ol Cl Sc 0 1) as [es [E W]]. rewrite E.
    destruct Ix as [Ix|[]]. rewrite <- Kb, <- Ix.
    change (kind_eqb UNICODE_BOM UNICODE_BOM && kind_eqb R_EXPRESSION_LIST R_EXPRESSION_LIST
            && kind_eqb EOF EOF) with true. cbn [check]. eexists. split; [reflexivity|exact W].
  - change (fill [Must [R_EXPRESSION_LIST]; Must [EOF]] (map syn_kind (a :: cs)) = true) in O.
    clear Oa. revert O C S R. generalize (a :: cs). clear a cs. intros cs O C S R.
    next O C S R. next O C S R. next O C S R.
    cbn [typed_root]. change (kind_eqb R_ROOT R_ROOT) with true. cbn iota.
    destruct (child_list R_EXPRESSION_LIST _ c eq_refl Oc Cc) as [l [-> [Ol Cl]]].
    destruct (typed_all_total [0] l Ol Cl Sc 0 0) as [es [E W]]. rewrite E.
    destruct Ix as [Ix|[]]. rewrite <- Ix.
    change (kind_eqb R_EXPRESSION_LIST R_EXPRESSION_LIST && kind_eqb EOF EOF) with true.
    cbn [check]. eexists. split; [reflexivity|exact W].
Qed.
End Typed.

(** Reading a source. *)
Theorem source_formats src t : well_parsed src t -> conforms t = true -> spelled src t ->
  forall rf, exists r, source_root rf src t = Some r /\ all_of ops (r_exprs r).
Proof.
  intros W C Sp rf. destruct (parsed_kept src t W C) as [g [P [A _]]].
  destruct (tokens_and_trivia_holds src t g W P) as [ps [T _]].
  destruct (open_green_some g ps T) as [s O].
  pose proof (open_skel g s O) as K. unfold source_root. rewrite P, O. unfold front_end.
  apply root_readable.
  - rewrite K. exact A.
  - pose proof (structure_holds src t g W P) as Z. pose proof (shape_skel g 0) as Y.
    rewrite Z in Y. cbn [skel_shape] in Y. rewrite <- Y in K. destruct s; cbn in K |- *; congruence.
  - pose proof (source_tokens_eq src t g s W P O) as E.
    assert (F : Forall (fun x => match spelling (t_kind x) with Some s => t_text x = s | None => True end)
                  (map token_of (syn_tokens s))).
    { rewrite E. apply Forall_app. split; [exact Sp|]. repeat constructor. }
    apply Forall_map in F. eapply Forall_impl; [|exact F]. intros x H. exact H.
Qed.
