(** Lists of parameters, statements and arguments, and tables. *)
From Coq Require Import List Arith Bool NArith Lia.
From Verif Require Import Text SettingsModel SyntaxKind FmtTree IrModel TableModel FmtModel
  FmtSpec FmtProofs FmtRunProofs.
Import ListNotations.

(** Assembling what a concatenation shows. *)
Ltac emit :=
  lazymatch goal with
  | |- emits _ (_ ++ _) _ _ =>
    first [ apply emits_neutral_l; [assumption | emit]
          | eapply emits_app; [eassumption | emit] ]
  | |- emits _ [] _ _ => apply emits_nil
  | |- emits _ _ _ _ => first [ eassumption | apply neutral_emits; assumption ]
  end.
Lemma emits_eq (P : Prop) os ts ts' cs cs' :
  emits P os ts cs -> ts = ts' -> cs = cs' -> emits P os ts' cs'.
Proof. intros H -> ->. exact H. Qed.
Ltac emitting := rewrite <- ?app_assoc; eapply emits_eq; [emit | | ].
Ltac norm := rewrite ?app_nil_r, <- ?app_assoc; cbn [app]; rewrite ?app_nil_r.

(** Takes layouts of concatenations apart. *)
Ltac split_lay H :=
  let x := fresh "x" in let y := fresh "y" in let A := fresh "A" in let E := fresh "E" in
  destruct H as [x [y [A [H E]]]]; subst.
Ltac lay_nil H := cbn [glay cat] in H; subst.

Lemma length_eqb_0 {A} (l : list A) : (length l =? 0) = true -> l = [].
Proof. destruct l; [reflexivity|discriminate]. Qed.

Lemma Forall2_length {A B} (R : A -> B -> Prop) l l' : Forall2 R l l' -> length l = length l'.
Proof. induction 1; cbn; congruence. Qed.

(** * Statements *)

Section Lists.
Variable P : Prop.

(** The document [d] shows a tree related to [x]. *)
Definition ok (R : expr -> expr -> Prop) (x : expr) (d : doc) : Prop :=
  forall m os, glay m d os -> exists x', R x x' /\ emits P os (etokens x') (ecomments x).

Lemma entry_break_neutral double lines m os : glay m (entry_break double lines) os -> neutral os.
Proof.
  unfold entry_break. destruct double.
  - destruct (2 <? lines).
    + intros H. split_lay H. split_lay H. lay_nil H. cbn [glay] in A, A0. subst. repeat split.
    + destruct (lines =? 2); apply line_neutral.
  - destruct (1 <? lines); apply line_neutral.
Qed.

Lemma join_entries_ok R double m : forall l first os,
  (forall x d, In (x, d) l -> ok R x d) ->
  glay m (join_entries double first l) os ->
  exists l', Forall2 R (map fst l) l' /\
    emits P os (concat (map etokens l')) (concat (map ecomments (map fst l))).
Proof.
  induction l as [|[x d] l IH]; intros first os O H.
  - cbn [join_entries glay] in H. subst os. exists []. split; [constructor|apply emits_nil].
  - cbn [join_entries] in H. split_lay H. split_lay H. split_lay H. lay_nil H.
    assert (N : neutral x0).
    { destruct first; [cbn [glay] in A; subst; apply neutral_nil|].
      exact (entry_break_neutral _ _ _ _ A). }
    destruct (O x d (or_introl eq_refl) _ _ A0) as [x' [Rx Ex]].
    destruct (IH false _ (fun y e i => O y e (or_intror i)) A1) as [l' [Rl El]].
    exists (x' :: l'). split; [constructor; assumption|].
    rewrite app_nil_r. emitting; reflexivity.
Qed.

(** The elements of braces, the last one apart. *)
Lemma join_stmts_ok (R : bool -> expr -> expr -> Prop) (f : bool -> expr -> doc) double m :
  forall l first os,
  (forall b x, In x l -> ok (R b) x (f (negb b) x)) ->
  glay m (join_entries double first
    ((fix go (l : list expr) : list (expr * doc) :=
        match l with [] => [] | x :: r => (x, f (is_last r) x) :: go r end) l)) os ->
  exists l', stmts_rel R l l' /\
    emits P os (concat (map etokens l')) (concat (map ecomments l)).
Proof.
  induction l as [|x l IH]; intros first os O H.
  - cbn [join_entries glay] in H. subst os. exists []. split; [constructor|apply emits_nil].
  - cbn [join_entries] in H. split_lay H. split_lay H. split_lay H. lay_nil H.
    assert (N : neutral x0).
    { destruct first; [cbn [glay] in A; subst; apply neutral_nil|].
      exact (entry_break_neutral _ _ _ _ A). }
    assert (E : is_last l = negb (match l with [] => false | _ => true end))
      by (destruct l; reflexivity).
    rewrite E in A0.
    destruct (O _ x (or_introl eq_refl) _ _ A0) as [x' [Rx Ex]].
    destruct (IH false _ (fun b y i => O b y (or_intror i)) A1) as [l' [Rl El]].
    exists (x' :: l'). split; [constructor; assumption|].
    rewrite app_nil_r. emitting; reflexivity.
Qed.

Lemma join_params_ok R m : forall l first os,
  (forall x d, In (x, d) l -> ok R x d) ->
  glay m (join_params first l) os ->
  exists l', Forall2 R (map fst l) l' /\
    emits P os (commas (map etokens l')) (concat (map ecomments (map fst l))).
Proof.
  induction l as [|[x d] l IH]; intros first os O H.
  - cbn [join_params glay] in H. subst os. exists []. split; [constructor|apply emits_nil].
  - cbn [join_params] in H. split_lay H. split_lay H. split_lay H. split_lay H. lay_nil H.
    assert (N : neutral x0).
    { destruct first; [cbn [glay] in A; subst; apply neutral_nil|].
      exact (line_neutral _ _ _ A). }
    destruct (O x d (or_introl eq_refl) _ _ A0) as [x' [Rx Ex]].
    destruct (IH false _ (fun y e i => O y e (or_intror i)) A2) as [l' [Rl El]].
    exists (x' :: l'). split; [constructor; assumption|].
    rewrite app_nil_r. destruct l as [|[y e] l].
    + inversion Rl; subst. cbn [glay] in A1, A2. subst. cbn [app].
      emitting; cbn; rewrite ?app_nil_r; reflexivity.
    + apply (token_emits P) in A1. inversion Rl; subst.
      emitting; cbn; rewrite ?app_nil_r; reflexivity.
Qed.

(** * Arguments *)

Fixpoint sep_tokens (args : list (ainfo * bool)) (l : list expr) : list token :=
  match args, l with
  | a :: args, x :: l =>
    etokens x ++ (if snd a then [tCOMMA] else []) ++ sep_tokens args l
  | _, _ => []
  end.
Definition args_comments (args : list (ainfo * bool)) : list text :=
  concat (map (fun a => ecomments (ai_node (fst a))) args).

Variable R : expr -> expr -> Prop.
Definition arg_rel (a : ainfo * bool) (x : expr) : Prop := R (ai_node (fst a)) x.
Definition shows_args (args : list (ainfo * bool)) (os : list op) : Prop :=
  exists l', Forall2 arg_rel args l' /\ emits P os (sep_tokens args l') (args_comments args).

Lemma sep_tokens_app a : forall l b l',
  length a = length l -> sep_tokens (a ++ b) (l ++ l') = sep_tokens a l ++ sep_tokens b l'.
Proof.
  induction a as [|x a IH]; intros [|y l] b l' E; try discriminate; [reflexivity|].
  cbn [sep_tokens app]. rewrite IH by (injection E; auto). rewrite <- !app_assoc. reflexivity.
Qed.
Lemma shows_nil os : neutral os -> shows_args [] os.
Proof. intros N. exists []. split; [constructor|]. apply neutral_emits, N. Qed.
Lemma shows_app a b x y : shows_args a x -> shows_args b y -> shows_args (a ++ b) (x ++ y).
Proof.
  intros [l [A B]] [l' [C D]]. exists (l ++ l'). split; [apply Forall2_app; assumption|].
  rewrite sep_tokens_app by (apply (Forall2_length _ _ _ A)). unfold args_comments.
  rewrite map_app, concat_app. apply emits_app; assumption.
Qed.
Lemma shows_neutral_l a x y : neutral x -> shows_args a y -> shows_args a (x ++ y).
Proof. intros N [l [A B]]. exists l. split; [exact A|]. apply emits_neutral_l; assumption. Qed.
Lemma shows_neutral_r a x y : neutral y -> shows_args a x -> shows_args a (x ++ y).
Proof. intros N [l [A B]]. exists l. split; [exact A|]. apply emits_neutral_r; assumption. Qed.

Definition arg_ok (a : ainfo * bool) : Prop := ok R (ai_node (fst a)) (ai_doc (fst a)).

Lemma shows_one (a : ainfo * bool) d m os :
  ok R (ai_node (fst a)) d ->
  glay m (DCat d (if snd a then token_doc tCOMMA else DNil)) os -> shows_args [a] os.
Proof.
  intros O H. split_lay H. destruct (O _ _ A) as [x' [Rx Ex]].
  exists [x']. split; [constructor; [exact Rx|constructor]|].
  cbn [sep_tokens args_comments map concat]. destruct (snd a).
  - apply (token_emits P) in H. emitting; reflexivity.
  - cbn [glay] in H. subst. emitting; reflexivity.
Qed.
Lemma shows_arg_doc a m os : arg_ok a -> glay m (arg_doc a) os -> shows_args [a] os.
Proof. intros O H. exact (shows_one a _ m os O H). Qed.
Lemma shows_cons a b x y : shows_args [a] x -> shows_args b y -> shows_args (a :: b) (x ++ y).
Proof. exact (shows_app [a] b x y). Qed.

Lemma holes_doc_shows m : forall l os,
  Forall arg_ok l -> glay m (holes_doc l) os -> shows_args l os.
Proof.
  unfold holes_doc. induction l as [|a l IH]; intros os O H.
  - cbn [map cat glay] in H. subst. apply shows_nil, neutral_nil.
  - inversion O as [|? ? O1 O2]; subst. split_lay H.
    apply shows_cons; [exact (shows_arg_doc _ _ _ O1 A)|exact (IH _ O2 H)].
Qed.
Lemma broken_args_shows m : forall l first os,
  Forall arg_ok l -> glay m (broken_args first l) os -> shows_args l os.
Proof.
  induction l as [|a l IH]; intros first os O H.
  - cbn [broken_args glay] in H. subst. apply shows_nil, neutral_nil.
  - inversion O as [|? ? O1 O2]; subst. cbn [broken_args] in H.
    split_lay H. split_lay H. split_lay H. lay_nil H.
    apply shows_neutral_l.
    + destruct first; [cbn [glay] in A; subst; apply neutral_nil|exact (line_neutral _ _ _ A)].
    + rewrite app_nil_r. apply shows_cons; [exact (shows_arg_doc _ _ _ O1 A0)|].
      exact (IH _ _ O2 A1).
Qed.
Lemma join_test_shows m : forall l first os,
  Forall arg_ok l ->
  glay m ((fix join (first : bool) (l : list (ainfo * bool)) :=
             match l with
             | [] => DNil
             | a :: r => cat [ (if first : bool then DNil else DSpace); arg_doc a; join false r ]
             end) first l) os -> shows_args l os.
Proof.
  induction l as [|a l IH]; intros first os O H.
  - cbn [glay] in H. subst. apply shows_nil, neutral_nil.
  - inversion O as [|? ? O1 O2]; subst.
    split_lay H. split_lay H. split_lay H. lay_nil H.
    apply shows_neutral_l.
    + destruct first; [cbn [glay] in A; subst; apply neutral_nil|exact (space_neutral _ _ A)].
    + rewrite app_nil_r. apply shows_cons; [exact (shows_arg_doc _ _ _ O1 A0)|].
      exact (IH _ _ O2 A1).
Qed.

Lemma all_broken_out_shows m l r rc holes args expand os :
  Forall arg_ok holes -> Forall arg_ok args ->
  glay m (all_broken_out l r rc holes args expand) os ->
  exists m' x y z, glay m' l x /\ glay m' r z /\ os = x ++ y ++ z /\
    shows_args (holes ++ args) y.
Proof.
  intros Oh Oa H. unfold all_broken_out in H. apply glay_group in H. destruct H as [m' H].
  split_lay H. split_lay H. split_lay H. split_lay H. split_lay H. lay_nil H.
  exists m', x, (x0 ++ x1 ++ x2), x3. split; [exact A|]. split; [exact A3|].
  split; [rewrite <- !app_assoc, app_nil_r; reflexivity|].
  apply shows_app; [exact (holes_doc_shows _ _ _ Oh A0)|].
  apply shows_neutral_l; [exact (maybe_space_neutral _ _ _ A1)|].
  destruct (negb expand && is_hugging args rc).
  - exact (broken_args_shows _ _ _ _ Oa A2).
  - apply glay_soft_block_indent in A2. destruct A2 as [a [u [b [Na [U [Nb ->]]]]]].
    apply shows_neutral_l; [exact Na|]. apply shows_neutral_r; [exact Nb|].
    exact (broken_args_shows _ _ _ _ Oa U).
Qed.

(** The last argument may be written by its grouped form. *)
Definition last_ok (args : list (ainfo * bool)) : Prop :=
  forall a d, last_opt args = Some a -> ai_function (fst a) = Some d ->
    ok R (ai_node (fst a)) d.

Lemma last_opt_cons {A} (a b : A) l : last_opt (a :: b :: l) = last_opt (b :: l).
Proof. reflexivity. Qed.

Lemma join_grouped_shows only (wrap : doc -> doc) m :
  (forall d m os, glay m (wrap d) os -> exists m', glay m' d os) ->
  forall l first os,
  Forall arg_ok l -> last_ok l -> glay m (join_grouped only first wrap l) os -> shows_args l os.
Proof.
  intros W. induction l as [|a l IH]; intros first os O La H.
  - cbn [join_grouped glay] in H. subst. apply shows_nil, neutral_nil.
  - inversion O as [|? ? O1 O2]; subst. cbn [join_grouped] in H.
    split_lay H. split_lay H. split_lay H. lay_nil H.
    apply shows_neutral_l.
    + destruct first; [cbn [glay] in A; subst; apply neutral_nil|exact (line_neutral _ _ _ A)].
    + rewrite app_nil_r. apply shows_cons.
      * destruct l as [|b l].
        -- apply W in A0. destruct A0 as [m' A0]. unfold grouped_last in A0.
           destruct (ai_function (fst a)) as [d|] eqn:E.
           ++ destruct only; [exact (shows_arg_doc _ _ _ O1 A0)|].
              exact (shows_one a d m' _ (La a d eq_refl E) A0).
           ++ exact (shows_arg_doc _ _ _ O1 A0).
        -- exact (shows_arg_doc _ _ _ O1 A0).
      * apply (IH false _ O2); [|exact A1].
        intros a' d E F. destruct l as [|b l]; [discriminate|].
        apply (La a' d); [|exact F]. rewrite last_opt_cons. exact E.
Qed.

Lemma write_grouped_shows m l r rc holes args os :
  Forall arg_ok holes -> Forall arg_ok args -> last_ok args ->
  glay m (write_grouped l r rc holes args) os ->
  exists m' x y z, glay m' l x /\ glay m' r z /\ os = x ++ y ++ z /\
    shows_args (holes ++ args) y.
Proof.
  intros Oh Oa La H. unfold write_grouped in H.
  destruct (last_opt args) as [a|]; [|exact (all_broken_out_shows _ _ _ _ _ _ _ _ Oh Oa H)].
  cbv zeta in H.
  match type of H with context [existsb ?f ?x] => destruct (existsb f x) end;
    [exact (all_broken_out_shows _ _ _ _ _ _ _ _ Oh Oa H)|].
  match type of H with context [if ?b then _ else _] => destruct b end;
    [exact (all_broken_out_shows _ _ _ _ _ _ _ _ Oh Oa H)|].
  assert (V : forall only wrap m os,
    (forall d m os, glay m (wrap d) os -> exists m', glay m' d os) ->
    glay m (cat [ l; holes_doc holes; maybe_space (nonempty holes && nonempty args);
                  join_grouped only true wrap args; r ]) os ->
    exists m' x y z, glay m' l x /\ glay m' r z /\ os = x ++ y ++ z /\
      shows_args (holes ++ args) y).
  { clear H. intros only wrap m0 os0 W H.
    split_lay H. split_lay H. split_lay H. split_lay H. split_lay H. lay_nil H.
    exists m0, x, (x0 ++ x1 ++ x2), x3. split; [exact A|]. split; [exact A3|].
    split; [rewrite <- !app_assoc, app_nil_r; reflexivity|].
    apply shows_app; [exact (holes_doc_shows _ _ _ Oh A0)|].
    apply shows_neutral_l; [exact (maybe_space_neutral _ _ _ A1)|].
    exact (join_grouped_shows _ _ _ W _ _ _ Oa La A2). }
  assert (W1 : forall d m os, glay m ((fun d : doc => d) d) os -> exists m', glay m' d os)
    by (intros d m0 os0 X; exists m0; exact X).
  assert (W2 : forall d m os, glay m (group true d) os -> exists m', glay m' d os)
    by (intros d m0 os0 X; exact X).
  destruct (will_break (arg_doc a)).
  - split_lay H. cbn [glay] in A. subst x. cbn [app]. destruct H as [m' [H|H]].
    + exact (V _ _ _ _ W2 H).
    + exact (all_broken_out_shows _ _ _ _ _ _ _ _ Oh Oa H).
  - destruct H as [m' [H|[m'' [H|H]]]].
    + exact (V _ _ _ _ W1 H).
    + exact (V _ _ _ _ W2 H).
    + exact (all_broken_out_shows _ _ _ _ _ _ _ _ Oh Oa H).
Qed.

Lemma holes_split l : take_holes l ++ drop_holes l = l.
Proof.
  induction l as [|a l IH]; [reflexivity|]. cbn [take_holes drop_holes].
  destruct (leading_hole a); [|reflexivity]. cbn [app]. rewrite IH. reflexivity.
Qed.

Lemma with_seps_nodes {A} (l : list A) : map fst (with_seps l) = l.
Proof.
  induction l as [|a l IH]; [reflexivity|]. destruct l as [|b l]; [reflexivity|].
  change (with_seps (a :: b :: l)) with ((a, true) :: with_seps (b :: l)).
  cbn [map fst]. rewrite IH. reflexivity.
Qed.
Lemma sep_tokens_with_seps infos : forall l,
  length l = length infos -> sep_tokens (with_seps infos) l = commas (map etokens l).
Proof.
  induction infos as [|a infos IH]; intros [|x l] E; try discriminate; [reflexivity|].
  destruct infos as [|b infos].
  - destruct l; [|discriminate]. cbn. apply app_nil_r.
  - destruct l as [|y l]; [discriminate|].
    change (with_seps (a :: b :: infos)) with ((a, true) :: with_seps (b :: infos)).
    cbn [sep_tokens snd]. rewrite IH by (injection E; auto). reflexivity.
Qed.
Lemma shows_all infos os :
  shows_args (with_seps infos) os ->
  exists l', Forall2 R (map ai_node infos) l' /\
    emits P os (commas (map etokens l')) (concat (map ecomments (map ai_node infos))).
Proof.
  intros [l' [A B]].
  assert (L : length l' = length infos).
  { rewrite <- (Forall2_length _ _ _ A), <- (map_length fst (with_seps infos)),
      with_seps_nodes. reflexivity. }
  exists l'. split.
  - rewrite <- (with_seps_nodes infos). rewrite map_map. clear B L.
    induction A; cbn [map]; constructor; assumption.
  - rewrite sep_tokens_with_seps in B by exact L. unfold args_comments in B.
    rewrite <- (with_seps_nodes infos), !map_map. exact B.
Qed.

Lemma Forall_split {A} (Q : A -> Prop) a b l : a ++ b = l -> Forall Q l -> Forall Q a /\ Forall Q b.
Proof. intros <- H. apply Forall_app, H. Qed.

Lemma last_opt_In {A} (l : list A) a : last_opt l = Some a -> In a l.
Proof.
  induction l as [|b l IH]; [discriminate|]. destruct l as [|c l].
  - intros H. injection H as <-. left. reflexivity.
  - rewrite last_opt_cons. intros H. right. exact (IH H).
Qed.
Lemma last_opt_app_r {A} (a b : list A) : b <> [] -> last_opt (a ++ b) = last_opt b.
Proof.
  intros N. induction a as [|x a IH]; [reflexivity|]. cbn [app].
  destruct (a ++ b) as [|y r] eqn:E.
  - destruct a; [subst; contradiction|discriminate].
  - rewrite last_opt_cons. exact IH.
Qed.
Lemma last_opt_with_seps {A} (infos : list A) (a : A * bool) :
  last_opt (with_seps infos) = Some a -> last_opt infos = Some (fst a).
Proof.
  revert a. induction infos as [|x infos IH]; intros a H; [discriminate|].
  destruct infos as [|y infos].
  - cbn in H. injection H as <-. reflexivity.
  - change (with_seps (x :: y :: infos)) with ((x, true) :: with_seps (y :: infos)) in H.
    assert (E : exists b r, with_seps (y :: infos) = b :: r)
      by (destruct infos; cbn; eauto).
    destruct E as [b [r E]]. rewrite E in H. rewrite last_opt_cons in H. rewrite <- E in H.
    rewrite last_opt_cons. exact (IH a H).
Qed.
Lemma last_opt_map {A B} (f : A -> B) l : last_opt (map f l) = opt_map f (last_opt l).
Proof.
  induction l as [|a l IH]; [reflexivity|]. destruct l as [|b l]; [reflexivity|].
  cbn [map]. rewrite !last_opt_cons. exact IH.
Qed.

Variable o : format_options.
Variable pc : doc -> option (list piece).

Lemma rule_call_like_shows m n k rc infos os :
  Forall arg_ok (with_seps infos) ->
  (infos <> [] -> group_last (map ai_node infos) = true -> last_ok (with_seps infos)) ->
  (P -> infos <> [] -> n_dang n = []) ->
  glay m (rule_call_like o n k rc infos) os ->
  exists l', Forall2 R (map ai_node infos) l' /\
    emits P os (l_token k :: commas (map etokens l') ++ [r_token k])
      (concat (map ecomments (map ai_node infos)) ++ map c_text (n_dang n)).
Proof.
  intros O La D H. unfold rule_call_like in H.
  assert (NL : norm_token (l_token k) = l_token k) by (destruct k; reflexivity).
  assert (NR : norm_token (r_token k) = r_token k) by (destruct k; reflexivity).
  destruct infos as [|i0 infos0] eqn:EI.
  - split_lay H. split_lay H. split_lay H. lay_nil H.
    apply (token_emits P) in A. apply (dangling_soft_emits P) in A0.
    apply (token_emits P) in A1. rewrite NL in A. rewrite NR in A1.
    exists []. split; [constructor|]. rewrite app_nil_r. emitting; [|norm]; reflexivity.
  - rewrite <- EI in *. assert (Ne : infos <> []) by (rewrite EI; discriminate). clear EI.
    assert (F : forall y, shows_args (with_seps infos) y ->
      forall m' x z, glay m' (token_doc (l_token k)) x -> glay m' (token_doc (r_token k)) z ->
      exists l', Forall2 R (map ai_node infos) l' /\
      emits P (x ++ y ++ z) (l_token k :: commas (map etokens l') ++ [r_token k])
        (concat (map ecomments (map ai_node infos)) ++ map c_text (n_dang n))).
    { intros y Sy m' x z X Z. apply shows_all in Sy. destruct Sy as [l' [A B]].
      exists l'. split; [exact A|]. apply (token_emits P) in X. apply (token_emits P) in Z.
      rewrite NL in X. rewrite NR in Z.
      refine (emits_perm P _ _ (concat (map ecomments (map ai_node infos))) _ _ _).
      - intros p c. rewrite (D p Ne). rewrite app_nil_r. reflexivity.
      - emitting; [|norm]; reflexivity. }
    assert (H' : glay m
      (if match k with KCall => is_test_call (map ai_node infos) | _ => false end
       then
        cat [ token_doc (l_token k);
              (fix join first (l : list (ainfo * bool)) :=
                 match l with
                 | [] => DNil
                 | a :: r => cat [ (if first : bool then DNil else DSpace); arg_doc a; join false r ]
                 end) true (with_seps infos);
              token_doc (r_token k) ]
       else
        let l := token_doc (l_token k) in
        let r := token_doc (r_token k) in
        let holes := take_holes (with_seps infos) in
        let args := drop_holes (with_seps infos) in
        if existsb (fun a => 1 <? hole_lines a) holes || existsb (fun a => 1 <? arg_lines a) args
        then all_broken_out l r rc holes args true
        else if persist o && (existsb (fun a => 0 <? hole_lines a) holes
                            || match args with a :: _ => 0 <? arg_lines a | [] => false end)
        then all_broken_out l r rc holes args true
        else if group_last (map ai_node infos) then write_grouped l r rc holes args
        else all_broken_out l r rc holes args false) os).
    { exact H. }
    clear H. rename H' into H.
    match type of H with glay _ (if ?b then _ else _) _ => destruct b end.
    + split_lay H. split_lay H. split_lay H. lay_nil H. rewrite app_nil_r.
      refine (F _ _ m _ _ A A1). exact (join_test_shows _ _ _ _ O A0).
    + cbv zeta in H.
      destruct (Forall_split _ _ _ _ (holes_split (with_seps infos)) O) as [Oh Oa].
      set (holes := take_holes (with_seps infos)) in *.
      set (args := drop_holes (with_seps infos)) in *.
      assert (HA : holes ++ args = with_seps infos) by apply holes_split.
      assert (G : forall os, (exists m' x y z, glay m' (token_doc (l_token k)) x /\
          glay m' (token_doc (r_token k)) z /\ os = x ++ y ++ z /\
          shows_args (holes ++ args) y) ->
        exists l', Forall2 R (map ai_node infos) l' /\
        emits P os (l_token k :: commas (map etokens l') ++ [r_token k])
          (concat (map ecomments (map ai_node infos)) ++ map c_text (n_dang n))).
      { intros os' [m' [x [y [z [X [Z [-> Y]]]]]]]. rewrite HA in Y.
        exact (F y Y m' x z X Z). }
      match type of H with glay _ (if ?b then _ else _) _ => destruct b end.
      { apply G. exact (all_broken_out_shows _ _ _ _ _ _ _ _ Oh Oa H). }
      match type of H with glay _ (if ?b then _ else _) _ => destruct b end.
      { apply G. exact (all_broken_out_shows _ _ _ _ _ _ _ _ Oh Oa H). }
      match type of H with glay _ (if ?b then _ else _) _ => destruct b eqn:EG end.
      { apply G. refine (write_grouped_shows _ _ _ _ _ _ _ Oh Oa _ H).
        intros a d La1 Ed. apply (La Ne eq_refl a d); [|exact Ed].
        rewrite <- HA. rewrite last_opt_app_r; [exact La1|].
        intros N. rewrite N in La1. discriminate. }
      apply G. exact (all_broken_out_shows _ _ _ _ _ _ _ _ Oh Oa H).
Qed.

(** * Tables *)

Definition cell_arg (c : cell ainfo) : ainfo * bool := (ce_arg _ c, ce_sep _ c).

Lemma literal_numeric e k : literal_kind e = Some k -> exists iw fw, k = Numeric iw fw.
Proof.
  unfold literal_kind. destruct e; try discriminate. destruct ts as [|t [|t' ts]]; try discriminate.
  destruct (kind_eqb k0 R_INTEGER_VALUE).
  - intros H. injection H as <-. eexists _, _. reflexivity.
  - destruct (kind_eqb k0 R_DOUBLE_VALUE); [|discriminate]. intros H. injection H as <-.
    unfold decimal_kind. destruct (find_dot (t_text t)); eexists _, _; reflexivity.
Qed.
Lemma parse_kind_other v other ps :
  parse_kind v other = Some (Other ps) -> other = Some ps.
Proof.
  assert (X : match other with None => None | Some ps => Some (Other ps) end = Some (Other ps) ->
              other = Some ps) by (destruct other; congruence).
  assert (Y : forall e, match literal_kind e with
                        | Some k => Some k
                        | None => match other with None => None | Some ps => Some (Other ps) end
                        end = Some (Other ps) -> other = Some ps).
  { intros e. destruct (literal_kind e) eqn:E; [|exact X].
    destruct (literal_numeric _ _ E) as [iw [fw ->]]. discriminate. }
  unfold parse_kind. destruct v as [e|]; [|exact X].
  destruct e; try exact X; try exact (Y _).
  destruct (text_eqb _ _ || text_eqb _ _); [|exact X].
  destruct (literal_kind e) eqn:E; [|exact X].
  destruct (literal_numeric _ _ E) as [iw [fw ->]]. discriminate.
Qed.

Lemma build_loop_spec other : forall args rs row cs t,
  (forall c, In c (concat rs ++ row) ->
     arg_named (ai_node (ce_arg _ c)) = false /\
     forall ps, ce_kind _ c = Other ps -> other (ce_arg _ c) = Some ps) ->
  build_loop ainfo ai_node other rs row cs args = Some t ->
  map cell_arg (concat (rows _ t)) ++ remaining _ t = map cell_arg (concat rs ++ row) ++ args /\
  (forall c, In c (concat (rows _ t)) ->
     arg_named (ai_node (ce_arg _ c)) = false /\
     forall ps, ce_kind _ c = Other ps -> other (ce_arg _ c) = Some ps).
Proof.
  assert (X : forall rs row : list _, concat (if length row =? 0 then rs else rs ++ [row])
              = concat rs ++ row :> list (cell ainfo)).
  { intros rs row. destruct (length row =? 0) eqn:E.
    - apply length_eqb_0 in E. subst. symmetry. apply app_nil_r.
    - rewrite concat_app. cbn. rewrite app_nil_r. reflexivity. }
  induction args as [|[a sep] args IH]; intros rs row cs t I H; cbn [build_loop] in H.
  - injection H as <-. cbn [rows remaining]. rewrite X. split; [reflexivity|exact I].
  - destruct (arg_named (ai_node a)) eqn:EN.
    + injection H as <-. cbn [rows remaining]. rewrite X. split; [reflexivity|exact I].
    + destruct (parse_kind _ _) as [k|] eqn:EK; [|discriminate].
      match type of H with build_loop _ _ _ ?rs' (?row' ++ [?c]) _ _ = _ =>
        assert (E : concat rs' ++ row' = concat rs ++ row)
      end.
      { destruct ((0 <? _) && _); [|reflexivity]. rewrite concat_app. cbn.
        rewrite !app_nil_r. reflexivity. }
      apply IH in H.
      * destruct H as [H1 H2]. split; [|exact H2]. rewrite H1.
        rewrite app_assoc, E, map_app, <- app_assoc. reflexivity.
      * intros c Ic. rewrite app_assoc, E in Ic. apply in_app_or in Ic.
        destruct Ic as [Ic|[<-|[]]]; [exact (I c Ic)|]. cbn [ce_arg ce_kind].
        split; [exact EN|]. intros ps ->. exact (parse_kind_other _ _ _ EK).
Qed.

Lemma spaces_neutral m n os : glay m (write_spaces n) os -> neutral os.
Proof. unfold write_spaces. destruct (0 <? n); cbn [glay]; intros ->; repeat split. Qed.

Lemma raw_pieces_shows m ps : forall os,
  glay m (raw_pieces ps) os ->
  optokens os = ptokens ps /\ opcomments os = pcomments ps /\ (pcomments ps = [] -> closed os).
Proof.
  unfold raw_pieces. induction ps as [|p ps IH]; intros os H.
  - cbn [map cat glay] in H. subst. repeat split.
  - split_lay H. destruct (IH _ H) as [I1 [I2 I3]].
    rewrite optokens_app, opcomments_app, I1, I2. unfold ptokens, pcomments.
    destruct p as [w| |]; cbn [glay] in A; subst x.
    + cbn [optokens opcomments flat_map app step_tokens step_comments]. rewrite !app_nil_r.
      repeat split. intros E. apply app_eq_nil in E. destruct E as [E1 E2].
      destruct w; try exact (I3 E2). discriminate.
    + repeat split. exact I3.
    + repeat split. exact I3.
Qed.

(** What a cell's text shows. *)
Definition fields_ok (a : ainfo) : Prop :=
  forall m os, glay m (ai_fields a) os ->
    exists x', R (ai_node a) x' /\ emits P os (etokens x') (kids (ai_node a)).
(** Its own notes, and what is inside it when it is a cell. *)
Definition cell_clean (a : ainfo) : Prop :=
  P -> n_dang (notes_of (ai_node a)) = [] /\
       (arg_named (ai_node a) = false -> kids (ai_node a) = []).

Lemma cell_text_prints a ps :
  cell_printer pc -> cell_text pc a = Some ps ->
  exists os, glay Flat (ai_fields a) os /\ ps = run os.
Proof.
  intros C H. unfold cell_text in H. destruct (pc _) as [ps'|] eqn:E; [|discriminate].
  destruct (existsb _ ps'); [discriminate|]. injection H as <-.
  apply C in E. destruct E as [os [L ->]]. exists os. split; [|reflexivity].
  apply (glay_remove_soft _ Expanded). apply lay_glay, L.
Qed.

Lemma write_cell_shows m cs j c os :
  cell_printer pc ->
  (forall ps, ce_kind _ c = Other ps -> cell_text pc (ce_arg _ c) = Some ps) ->
  arg_named (ai_node (ce_arg _ c)) = false ->
  arg_ok (cell_arg c) -> fields_ok (ce_arg _ c) -> cell_clean (ce_arg _ c) ->
  glay m (write_cell ainfo own_lead own_trail ai_doc (token_doc tCOMMA) cs j c) os ->
  shows_args [cell_arg c] os.
Proof.
  intros Cp Ck Nm O F Cl H. unfold write_cell in H.
  destruct (cell_padding _ _) as [lp rp].
  split_lay H. split_lay H. split_lay H. split_lay H. split_lay H. lay_nil H.
  apply spaces_neutral in A. rewrite app_nil_r.
  apply shows_neutral_l; [exact A|].
  assert (V : exists x', R (ai_node (ce_arg _ c)) x' /\
              emits P x0 (etokens x') (ecomments (ai_node (ce_arg _ c)))).
  { destruct (ce_kind _ c) as [iw fw|ps] eqn:EK.
    - exact (O _ _ A0).
    - split_lay A0. split_lay A0. split_lay A0. lay_nil A0. rewrite app_nil_r.
      destruct (cell_text_prints _ _ Cp (Ck ps eq_refl)) as [os' [L ->]].
      destruct (F _ _ L) as [x' [Rx [E1 E2]]]. exists x'. split; [exact Rx|].
      apply (leading_emits P) in A4. apply (trailing_emits P) in A6.
      apply raw_pieces_shows in A5. destruct A5 as [T1 [T2 T3]].
      rewrite run_tokens, E1 in T1.
      rewrite ecomments_eq. unfold wrap_comments.
      assert (E : emits P x0 (etokens x') []).
      { split; [exact T1|]. intros p. destruct (E2 p) as [E3 _]. destruct (Cl p) as [_ K].
        specialize (K Nm). rewrite K in E3.
        assert (Z : pcomments (run os') = []).
        { destruct (pcomments (run os')) as [|c0 r] eqn:EP; [reflexivity|].
          pose proof (run_comments os' c0) as X. rewrite EP, (E3 c0) in X.
          unfold tcount in X. cbn [count_occ] in X.
          destruct (text_dec c0 c0); [discriminate|contradiction]. }
        rewrite T2, Z. split; [reflexivity|exact (T3 Z)]. }
      refine (emits_perm P _ _ (map c_text (n_lead (notes_of (ai_node (ce_arg _ c)))) ++
                           map c_text (n_trail (notes_of (ai_node (ce_arg _ c))))) _ _ _).
      + intros p c0. destruct (Cl p) as [D K]. rewrite D, (K Nm). reflexivity.
      + emitting; [norm|]; reflexivity. }
  destruct V as [x' [Rx Ex]]. exists [x']. split; [constructor; [exact Rx|constructor]|].
  cbn [sep_tokens args_comments map concat cell_arg fst snd].
  apply space_neutral in A3.
  destruct (ce_sep _ c).
  - apply spaces_neutral in A1. split_lay A2. split_lay A2. lay_nil A2.
    apply space_neutral in A4. apply (token_emits P) in A5. rewrite app_nil_r.
    emitting; [norm|]; reflexivity.
  - cbn [glay] in A1, A2. subst. cbn [app]. emitting; [norm|norm]; reflexivity.
Qed.

Definition cell_good (c : cell ainfo) : Prop :=
  (forall ps, ce_kind _ c = Other ps -> cell_text pc (ce_arg _ c) = Some ps) /\
  arg_named (ai_node (ce_arg _ c)) = false /\
  arg_ok (cell_arg c) /\ fields_ok (ce_arg _ c) /\ cell_clean (ce_arg _ c).

Lemma write_cells_shows m cs (Cp : cell_printer pc) : forall row j os,
  Forall cell_good row ->
  glay m (write_cells ainfo own_lead own_trail ai_doc (token_doc tCOMMA) cs j row) os ->
  shows_args (map cell_arg row) os.
Proof.
  induction row as [|c row IH]; intros j os G H.
  - cbn [write_cells glay] in H. subst. apply shows_nil, neutral_nil.
  - inversion G as [|? ? [G1 [G2 [G3 [G4 G5]]]] G6]; subst. cbn [write_cells] in H. split_lay H.
    cbn [map]. apply shows_cons; [|exact (IH _ _ G6 H)].
    exact (write_cell_shows _ _ _ _ _ Cp G1 G2 G3 G4 G5 A).
Qed.
Lemma write_rows_shows m cs (Cp : cell_printer pc) : forall rs first os,
  Forall cell_good (concat rs) ->
  glay m (write_rows ainfo ai_node own_lead own_trail ai_doc (token_doc tCOMMA) cs first rs) os ->
  shows_args (map cell_arg (concat rs)) os.
Proof.
  induction rs as [|row rs IH]; intros first os G H.
  - cbn [write_rows glay] in H. subst. apply shows_nil, neutral_nil.
  - cbn [write_rows] in H. split_lay H. split_lay H. split_lay H. lay_nil H.
    cbn [concat] in G |- *. apply Forall_app in G. destruct G as [G1 G2].
    apply shows_neutral_l.
    { destruct first; [cbn [glay] in A; subst; apply neutral_nil|].
      unfold row_break in A. destruct row; [cbn [glay] in A; subst; apply neutral_nil|].
      exact (line_neutral _ _ _ A). }
    rewrite app_nil_r, map_app. apply shows_app; [exact (write_cells_shows _ _ Cp _ _ _ G1 A0)|].
    exact (IH _ _ G2 A1).
Qed.
Lemma write_remaining_shows m l os :
  Forall arg_ok l ->
  glay m (write_remaining ainfo ai_node ai_doc (token_doc tCOMMA) l) os -> shows_args l os.
Proof.
  unfold write_remaining. destruct l as [|a0 l0].
  - cbn [glay]. intros _ ->. apply shows_nil, neutral_nil.
  - set (l := a0 :: l0). intros O H. split_lay H. apply shows_neutral_l;
      [exact (line_neutral _ _ _ A)|]. clear A.
    revert y H. induction O as [|[a sep] l1 O1 O2 IH]; intros y H.
    + cbn [map cat glay] in H. subst. apply shows_nil, neutral_nil.
    + cbn [map] in H. split_lay H. split_lay A. split_lay A. split_lay A. lay_nil A.
      rewrite app_nil_r. rewrite <- !app_assoc.
      apply shows_neutral_l; [exact (line_neutral _ _ _ A0)|].
      rewrite app_assoc. apply shows_cons; [|exact (IH _ H)].
      apply (shows_one (a, sep) (ai_doc a) m); [exact O1|].
      do 2 eexists. split; [exact A1|]. split; [exact A2|reflexivity].
Qed.

Lemma write_table_shows m t infos os :
  cell_printer pc ->
  Forall arg_ok (with_seps infos) ->
  Forall (fun a => fields_ok (fst a) /\ cell_clean (fst a)) (with_seps infos) ->
  build_table ainfo ai_node (cell_text pc) (with_seps infos) = Some t ->
  glay m (write_table ainfo ai_node own_lead own_trail ai_doc (token_doc tCOMMA)
            (token_doc tLPAREN) (token_doc tRPAREN) t) os ->
  exists l', Forall2 R (map ai_node infos) l' /\
    emits P os (tLPAREN :: commas (map etokens l') ++ [tRPAREN])
      (concat (map ecomments (map ai_node infos))).
Proof.
  intros Cp O G B H. unfold build_table in B.
  apply build_loop_spec in B; [|intros c []].
  destruct B as [B1 B2]. cbn [concat map app] in B1.
  unfold write_table in H. apply glay_group in H. destruct H as [m' H].
  split_lay H. split_lay H. split_lay H. lay_nil H. rewrite app_nil_r.
  apply glay_soft_block_indent in A0. destruct A0 as [a [u [b [Na [U [Nb ->]]]]]].
  split_lay U.
  assert (Ha : forall c, In c (concat (rows _ t)) -> In (cell_arg c) (with_seps infos)).
  { intros c Ic. rewrite <- B1. apply in_or_app. left. apply in_map, Ic. }
  rewrite Forall_forall in O, G.
  assert (Sh : shows_args (with_seps infos) (x0 ++ y)).
  { rewrite <- B1. apply shows_app.
    - refine (write_rows_shows _ _ Cp _ _ _ _ A0). apply Forall_forall. intros c Ic.
      destruct (B2 c Ic) as [N K]. destruct (G _ (Ha c Ic)) as [G1 G2].
      split; [exact K|]. split; [exact N|]. split; [exact (O _ (Ha c Ic))|]. split; assumption.
    - refine (write_remaining_shows _ _ _ _ U). apply Forall_forall. intros a0 Ia.
      apply O. rewrite <- B1. apply in_or_app. right. exact Ia. }
  apply shows_all in Sh. destruct Sh as [l' [F E]]. exists l'. split; [exact F|].
  apply (token_emits P) in A. apply (token_emits P) in A1.
  rewrite <- !app_assoc. rewrite (app_assoc x0 y).
  eapply emits_eq.
  - eapply emits_app; [exact A|]. apply emits_neutral_l; [exact Na|].
    eapply emits_app; [exact E|]. apply emits_neutral_l; [exact Nb|]. exact A1.
  - reflexivity.
  - norm. reflexivity.
Qed.
End Lists.
