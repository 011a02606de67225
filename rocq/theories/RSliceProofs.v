(** A stretch of a text that R reads, read by itself: the same lexemes, and the
    same ends of expressions where the stretch stands in the same context. *)
From Coq Require Import List NArith Bool Arith Lia String.
From Verif Require Import Text TextFacts LineEndingSpec SettingsModel SyntaxKind FmtTree IrModel FmtSpec ParseModel ParseSpec
  LexSpec LexProofs LexRunProofs LexAlignProofs LexSourceProofs RReadSpec FmtLineSpec RTextSpec RNestProofs RTreeProofs
  RWideProofs RSoundProofs.
Import ListNotations.
Local Open Scope N_scope.

(** * The open delimiters after some lexemes *)

Definition is_header (x : text) : bool := match role_of (kind_of x) with RoHeader => true | _ => false end.
Definition opened1 (s : list opened * bool) (x : text) : option (list opened * bool) :=
  match r_open {| rs_open := fst s; rs_eats := false; rs_fresh := false; rs_pause := NoBreak;
                  rs_header := snd s |} x with
  | Some s' => Some (s', is_header x)
  | None => None
  end.
Fixpoint opened_by (s : list opened * bool) (l : list text) : option (list opened * bool) :=
  match l with
  | [] => Some s
  | x :: r => match opened1 s x with Some s' => opened_by s' r | None => None end
  end.
Lemma opened_by_app a : forall s b,
  opened_by s (a ++ b) = match opened_by s a with Some s' => opened_by s' b | None => None end.
Proof. induction a as [|x a IH]; intros s b; [reflexivity|]. cbn [app opened_by]. destruct (opened1 s x); auto. Qed.
Lemma r_lexeme_opened st x b st' : r_lexeme st x = Some (b, st') ->
  opened1 (rs_open st, rs_header st) x = Some (rs_open st', rs_header st').
Proof.
  unfold r_lexeme, opened1. cbn [fst snd]. change (r_open _ x) with (r_open st x) at 2.
  destruct (r_open st x) as [s|]; [|discriminate]. intros E. injection E as _ <-. reflexivity.
Qed.
Lemma r_items_opened is : forall st m st', r_items st is = Some (m, st') ->
  opened_by (rs_open st, rs_header st) (map fst m) = Some (rs_open st', rs_header st').
Proof.
  induction is as [|i is IH]; intros st m st' R; cbn [r_items] in R; [injection R as <- <-; reflexivity|].
  destruct (r_item st i) as [[a st1]|] eqn:Ri; [|discriminate].
  destruct (r_items st1 is) as [[b st2]|] eqn:R2; [|discriminate]. injection R as <- <-.
  specialize (IH _ _ _ R2). destruct i as [x| |]; cbn [r_item] in Ri.
  - destruct (LexSpec.is_comment x); [injection Ri as <- <-; exact IH|].
    destruct (r_lexeme st x) as [[k st3]|] eqn:L; [|discriminate]. injection Ri as <- <-.
    cbn [app map fst opened_by]. rewrite (r_lexeme_opened _ _ _ _ L). exact IH.
  - injection Ri as <- <-. cbn [app]. unfold r_break in IH. destruct (rs_eats st); [exact IH|].
    destruct (rs_pause st); exact IH.
  - destruct (r_semi st) as [s|] eqn:Sm; [|discriminate]. injection Ri as <- <-. cbn [app]. unfold r_semi in Sm.
    destruct (rs_fresh st); [injection Sm as <-; exact IH|]. destruct (rs_eats st); [discriminate|].
    injection Sm as <-. exact IH.
Qed.

Definition words_of (l : list (token * bool)) : list text := map fst (marked_lexemes l).
Lemma flat_opened s t : flat_kind (t_kind t) = true -> kind_of (t_text t) = t_kind t ->
  opened1 s (t_text t) = Some (fst s, is_header (t_text t)).
Proof.
  intros F K. unfold opened1, r_open. rewrite K. destruct (t_kind t); try discriminate F; reflexivity.
Qed.
Lemma string_opened s a z : is_string a = true -> opened1 s (a ++ z) = Some (fst s, false).
Proof.
  intros A. unfold opened1, r_open, is_header. rewrite (string_kind _ (is_string_app a z A)). reflexivity.
Qed.
Lemma nested_level l : nested l -> forall s, exists h, opened_by s (words_of l) = Some (fst s, h).
Proof.
  unfold words_of. induction 1 as [|t b F K Nc|a z b A Z T|a c z b A C Z N T|o c b b' l O C H IH|x y X IX Y IY]; intros s.
  - exists (snd s). destruct s. reflexivity.
  - rewrite (marked_one t b F). cbn [map fst opened_by]. rewrite (flat_opened s t F K). eauto.
  - rewrite (marked_two a z b A Z). cbn [map fst opened_by]. rewrite (string_opened s _ _ (proj1 T)). eauto.
  - rewrite (marked_three a c z b A C Z). cbn [map fst opened_by].
    rewrite <- app_assoc, (string_opened s _ _ (proj1 T)). eauto.
  - rewrite (pair_lexemes o c b b' l O C H). cbn [map fst]. rewrite map_app.
    change (t_text o :: ?r) with ([t_text o] ++ r). rewrite opened_by_app. destruct s as [s h].
    destruct (closer_cases o c O C) as [E|[E|[E|E]]]; injection E as -> ->; cbn [t_text tk].
    + match goal with |- context [opened_by (s, h) ?y] => change (opened_by (s, h) y) with (Some ((if h then OHead else ORound) :: s, false)) end. cbv beta iota.
      destruct (IH ((if h then OHead else ORound) :: s, false)) as [h' E]. rewrite opened_by_app, E.
      exists false. destruct h; reflexivity.
    + match goal with |- context [opened_by (s, h) ?y] => change (opened_by (s, h) y) with (Some (OCurly :: s, false)) end. cbv beta iota.
      destruct (IH (OCurly :: s, false)) as [h' E]. rewrite opened_by_app, E. exists false. reflexivity.
    + match goal with |- context [opened_by (s, h) ?y] => change (opened_by (s, h) y) with (Some (OSquare :: s, false)) end. cbv beta iota.
      destruct (IH (OSquare :: s, false)) as [h' E]. rewrite opened_by_app, E. exists false. reflexivity.
    + match goal with |- context [opened_by (s, h) ?y] => change (opened_by (s, h) y) with (Some (OSquare :: OSquare :: s, false)) end. cbv beta iota.
      destruct (IH (OSquare :: OSquare :: s, false)) as [h' E]. rewrite opened_by_app, E. exists false. reflexivity.
  - rewrite (nested_app_lexemes x y X Y), map_app, opened_by_app. destruct (IX s) as [h E]. rewrite E.
    destruct (IY (fst s, h)) as [h' E']. rewrite E'. eauto.
Qed.

(** * The same lexemes from two states *)

Record alike (B B' X : list opened) (st st' : rstate) : Prop := {
  al_open : rs_open st = X ++ B;
  al_open' : rs_open st' = X ++ B';
  al_eats : rs_eats st' = rs_eats st;
  al_fresh : rs_fresh st' = rs_fresh st;
  al_pause : rs_pause st' = rs_pause st;
  al_header : rs_header st' = rs_header st
}.
Definition base : list opened := [OSeen InFile].

Lemma around_both B B' X : around B = around B' -> around (X ++ B) = around (X ++ B').
Proof. destruct X as [|x X]; [auto|reflexivity]. Qed.
(** What a lexeme that leaves the [X] open does to them, whatever stands below. *)
Lemma open_both B X h x Y h' : opened1 (X ++ base, h) x = Some (Y, h') ->
  exists X1, Y = X1 ++ base /\ h' = is_header x /\
    (forall C st, rs_open st = X ++ C -> rs_header st = h -> r_open st x = Some (X1 ++ C)) /\
    goes_on (role_of (kind_of x)) (X ++ B) = goes_on (role_of (kind_of x)) (X ++ base) /\
    (X1 <> [] \/ match role_of (kind_of x) with RoOpenCurly => False | _ => True end).
Proof.
  unfold opened1, r_open. cbn [fst snd rs_open rs_header]. intros E.
  destruct (role_of (kind_of x)) eqn:R; cbn [goes_on] in *;
    try (injection E as <- <-; exists X; (split; [reflexivity|]); (split; [reflexivity|]);
         (split; [intros C st Ho _; rewrite Ho; reflexivity|]); (split; [reflexivity|]); right; exact I).
  - injection E as <- <-. exists ((if h then OHead else ORound) :: X). split; [reflexivity|]. split; [reflexivity|].
    split; [intros C st Ho Hh; rewrite Ho, Hh; reflexivity|]. split; [reflexivity|left; discriminate].
  - injection E as <- <-. exists (map (fun _ => OSquare) x ++ X). rewrite <- app_assoc. split; [reflexivity|].
    split; [reflexivity|]. split; [intros C st Ho Hh; rewrite Ho, <- app_assoc; reflexivity|]. split; [reflexivity|right; exact I].
  - injection E as <- <-. exists (OCurly :: X). split; [reflexivity|]. split; [reflexivity|].
    split; [intros C st Ho Hh; rewrite Ho; reflexivity|]. split; [reflexivity|left; discriminate].
  - destruct X as [|[] X]; try discriminate E; cbn [app] in E; injection E as <- <-; exists X; (split; [reflexivity|]); (split; [reflexivity|]);
      (split; [intros C st Ho Hh; rewrite Ho; reflexivity|]); (split; [reflexivity|right; exact I]).
  - destruct X as [|[] X]; try discriminate E; cbn [app] in E; injection E as <- <-; exists X; (split; [reflexivity|]); (split; [reflexivity|]);
      (split; [intros C st Ho Hh; rewrite Ho; reflexivity|]); (split; [reflexivity|right; exact I]).
  - destruct X as [|[] X]; try discriminate E; cbn [app] in E; injection E as <- <-; exists X; (split; [reflexivity|]); (split; [reflexivity|]);
      (split; [intros C st Ho Hh; rewrite Ho; reflexivity|]); (split; [reflexivity|right; exact I]).
Qed.
Lemma alike_lexeme B B' X st st' x b st1 Y h : around B = around B' -> alike B B' X st st' ->
  opened1 (X ++ base, rs_header st) x = Some (Y, h) -> r_lexeme st x = Some (b, st1) ->
  exists X1 st1', Y = X1 ++ base /\ h = rs_header st1 /\ r_lexeme st' x = Some (b, st1') /\ alike B B' X1 st1 st1'.
Proof.
  intros Ar [A A' E F P H] O R.
  destruct (open_both B X _ x Y h O) as (X1 & -> & -> & Op & G & _).
  destruct (open_both B' X _ x _ _ O) as (X1' & E1 & _ & Op' & G' & _). apply app_inv_tail in E1. subst X1'.
  unfold r_lexeme in *. rewrite (Op _ st A eq_refl) in R. rewrite (Op' _ st' A' H).
  injection R as <- <-.
  eexists X1, _. split; [reflexivity|]. split; [reflexivity|]. split.
  - f_equal. f_equal. unfold r_mark. rewrite P, A, A', (around_both _ _ X Ar). reflexivity.
  - split; cbn [rs_open rs_eats rs_fresh rs_pause rs_header]; try reflexivity.
    rewrite A, A', G, G', (around_both _ _ X1 Ar). reflexivity.
Qed.
Lemma alike_items B B' is : around B = around B' -> forall X st st' m stF Y h, alike B B' X st st' ->
  r_items st is = Some (m, stF) -> opened_by (X ++ base, rs_header st) (map fst m) = Some (Y, h) ->
  exists X1 stF', Y = X1 ++ base /\ r_items st' is = Some (m, stF') /\ alike B B' X1 stF stF'.
Proof.
  intros Ar. induction is as [|i is IH]; intros X st st' m stF Y h A R O; cbn [r_items] in R.
  { injection R as <- <-. cbn [map opened_by] in O. injection O as <- _. exists X, st'. auto. }
  destruct (r_item st i) as [[a st1]|] eqn:Ri; [|discriminate].
  destruct (r_items st1 is) as [[b st2]|] eqn:R2; [|discriminate]. injection R as <- <-.
  assert (Go : forall st1' X1, r_item st' i = Some (a, st1') -> alike B B' X1 st1 st1' ->
            opened_by (X1 ++ base, rs_header st1) (map fst b) = Some (Y, h) ->
            exists X2 stF', Y = X2 ++ base /\ r_items st' (i :: is) = Some (a ++ b, stF') /\ alike B B' X2 st2 stF').
  { intros st1' X1 E1 A1 O1. destruct (IH _ _ _ _ _ _ _ A1 R2 O1) as (X2 & sF & G1 & G2 & G3).
    exists X2, sF. cbn [r_items]. rewrite E1, G2. auto. }
  destruct i as [x| |]; cbn [r_item] in Ri.
  - destruct (LexSpec.is_comment x) eqn:Cm.
    { injection Ri as <- <-. apply (Go st' X); [cbn [r_item]; rewrite Cm; reflexivity|exact A|exact O]. }
    destruct (r_lexeme st x) as [[k st3]|] eqn:L; [|discriminate]. injection Ri as <- <-.
    cbn [app map fst opened_by] in O. destruct (opened1 (X ++ base, rs_header st) x) as [[Y1 h1]|] eqn:O1; [|discriminate].
    destruct (alike_lexeme _ _ _ _ _ _ _ _ _ _ Ar A O1 L) as (X1 & s3 & -> & -> & L' & A1).
    apply (Go s3 X1); [cbn [r_item]; rewrite Cm, L'; reflexivity|exact A1|exact O].
  - injection Ri as <- <-. cbn [app] in O.
    apply (Go (r_break st') X); [reflexivity| |].
    + destruct A as [A A' E F P H]. unfold r_break. rewrite E, P. destruct (rs_eats st) eqn:Es; [split; congruence|].
      destruct (rs_pause st) eqn:Ps; split; cbn [paused rs_open rs_eats rs_fresh rs_pause rs_header]; congruence.
    + unfold r_break. destruct (rs_eats st); [exact O|]. destruct (rs_pause st); exact O.
  - destruct (r_semi st) as [s1|] eqn:Sm; [|discriminate]. injection Ri as <- <-. cbn [app] in O.
    unfold r_semi in Sm. pose proof A as [A0 A' E F P H]. destruct (rs_fresh st) eqn:Fr.
    { injection Sm as <-. apply (Go st' X); [|exact A|exact O]. cbn [r_item]. unfold r_semi. rewrite F. reflexivity. }
    destruct (rs_eats st) eqn:Es; [discriminate|]. injection Sm as <-.
    apply (Go (paused Semicolon st') X); [|split; cbn [paused rs_open rs_eats rs_fresh rs_pause rs_header]; congruence|exact O].
    cbn [r_item]. unfold r_semi. rewrite F, E. reflexivity.
Qed.
(** The first lexeme of the stretch. *)
Lemma first_alike c st x b st1 Y h : around (rs_open st) = c -> rs_header st = false ->
  opened1 (base, false) x = Some (Y, h) -> r_lexeme st x = Some (b, st1) ->
  exists X1 st1', Y = X1 ++ base /\ h = rs_header st1 /\ r_lexeme (r_inside c) x = Some (false, st1') /\
    alike (rs_open st) [OSeen c] X1 st1 st1'.
Proof.
  intros Ar Hd O R. change base with ([] ++ base) in O.
  destruct (open_both (rs_open st) [] _ x Y h O) as (X1 & -> & -> & Op & G & _).
  destruct (open_both [OSeen c] [] _ x _ _ O) as (X1' & E1 & _ & Op' & G' & _). apply app_inv_tail in E1. subst X1'.
  unfold r_lexeme in *. rewrite (Op _ st eq_refl Hd) in R. rewrite (Op' _ (r_inside c) eq_refl eq_refl).
  injection R as <- <-. eexists X1, _. split; [reflexivity|]. split; [reflexivity|]. split.
  - f_equal. f_equal. unfold r_mark. cbn [r_inside rs_pause]. destruct (kind_of x); reflexivity.
  - split; cbn [rs_open rs_eats rs_fresh rs_pause rs_header]; try reflexivity.
    cbn [app] in G, G'. change (rs_open (r_inside c)) with [OSeen c].
    rewrite G, G', (around_both (rs_open st) [OSeen c] X1) by (rewrite Ar; reflexivity). reflexivity.
Qed.

(** Whatever stands below. *)
Lemma opened_below l : forall X h Y h' B, opened_by (X ++ base, h) l = Some (Y, h') ->
  exists X1, Y = X1 ++ base /\ opened_by (X ++ B, h) l = Some (X1 ++ B, h').
Proof.
  induction l as [|x l IH]; intros X h Y h' B O; cbn [opened_by] in *; [injection O as <- <-; eauto|].
  destruct (opened1 (X ++ base, h) x) as [[Y1 h1]|] eqn:O1; [|discriminate].
  destruct (open_both B X h x Y1 h1 O1) as (X1 & -> & -> & Op & _).
  destruct (IH X1 _ _ _ B O) as (X2 & E & O2). exists X2. split; [exact E|]. unfold opened1. cbn [fst snd].
  match goal with |- context [r_open ?s x] => rewrite (Op B s eq_refl eq_refl) end. exact O2.
Qed.

(** * The end of the stretch *)

Lemma r_items_app a : forall st b, r_items st (a ++ b) =
  match r_items st a with
  | Some (m, st') => match r_items st' b with Some (m', st'') => Some (m ++ m', st'') | None => None end
  | None => None
  end.
Proof.
  induction a as [|i a IH]; intros st b; cbn [app r_items].
  - destruct (r_items st b) as [[m s]|]; reflexivity.
  - destruct (r_item st i) as [[m st1]|]; [|reflexivity]. rewrite IH.
    destruct (r_items st1 a) as [[m' st2]|]; [|reflexivity].
    destruct (r_items st2 b) as [[m'' st3]|]; [|reflexivity]. rewrite app_assoc. reflexivity.
Qed.
Lemma r_items_last a z st m st' : LexSpec.is_comment z = false -> r_items st (a ++ [ILex z]) = Some (m, st') ->
  exists m0 st0 b, r_items st a = Some (m0, st0) /\ r_lexeme st0 z = Some (b, st') /\ m = m0 ++ [(z, b)].
Proof.
  intros C R. rewrite r_items_app in R. destruct (r_items st a) as [[m0 st0]|]; [|discriminate].
  cbn [r_items r_item] in R. rewrite C in R. destruct (r_lexeme st0 z) as [[b s]|] eqn:L; [|discriminate].
  injection R as <- <-. exists m0, st0, b. auto.
Qed.
Lemma lexeme_after st x b st' : r_lexeme st x = Some (b, st') ->
  rs_pause st' = NoBreak /\ rs_header st' = is_header x /\
  rs_eats st' = goes_on (role_of (kind_of x)) (rs_open st) || is_round (around (rs_open st')).
Proof.
  unfold r_lexeme. destruct (r_open st x) as [s|]; [|discriminate]. intros E. injection E as _ <-. auto.
Qed.

(** Lexemes after whose last one a line break ends the expression. *)
Definition settles (l : list text) : Prop :=
  exists xs z Y h, l = xs ++ [z] /\ opened_by (base, false) xs = Some (Y, h) /\
    goes_on (role_of (kind_of z)) Y = false.
Definition off (l : list text) : Prop := exists xs z, l = xs ++ [z] /\ is_header z = false.

(** A stretch in its own context. *)
Lemma stretch_fits c st x r z r' m st1 : around (rs_open st) = c -> rs_header st = false ->
  LexSpec.is_comment x = false -> LexSpec.is_comment z = false -> ILex x :: r = r' ++ [ILex z] ->
  r_items st (ILex x :: r) = Some (m, st1) ->
  (exists h, opened_by (base, false) (map fst m) = Some (base, h)) -> off (map fst m) ->
  settles (map fst m) \/ c = InRound ->
  exists b m' st', m = (x, b) :: m' /\ r_items (r_inside c) (ILex x :: r) = Some ((x, false) :: m', st') /\
    rs_open st' = [OSeen c] /\ rs_eats st' = is_round c /\ rs_pause st' = NoBreak /\ rs_header st' = false.
Proof.
  intros Ar Hd Cx Cz E R [h O] Of Se. pose proof R as R0. cbn [r_items r_item] in R. rewrite Cx in R.
  destruct (r_lexeme st x) as [[b st2]|] eqn:L; [|discriminate].
  destruct (r_items st2 r) as [[m' st3]|] eqn:R2; [|discriminate]. injection R as <- <-.
  cbn [app map fst opened_by] in O. destruct (opened1 (base, false) x) as [[Y1 h1]|] eqn:O1; [|discriminate].
  destruct (first_alike c st x b st2 Y1 h1 Ar Hd O1 L) as (X1 & s2 & -> & -> & L' & A1).
  assert (Ar' : around (rs_open st) = around [OSeen c]) by (rewrite Ar; reflexivity).
  destruct (alike_items _ _ r Ar' _ _ _ _ _ _ _ A1 R2 O) as (X2 & s3 & E2 & R3 & A2).
  apply (app_inv_tail base [] X2) in E2. subst X2.
  assert (Rs : r_items (r_inside c) (ILex x :: r) = Some ((x, false) :: m', s3)).
  { cbn [r_items r_item]. rewrite Cx, L', R3. reflexivity. }
  exists b, m', s3. split; [reflexivity|]. split; [exact Rs|]. rewrite E in Rs.
  destruct (r_items_last r' z _ _ _ Cz Rs) as (m0 & st0 & bz & Q1 & Q2 & Q3).
  destruct (lexeme_after _ _ _ _ Q2) as (P1 & P2 & P3). pose proof (al_open' _ _ _ _ _ A2) as Op. cbn [app] in Op.
  split; [exact Op|]. rewrite Op in P3. cbn [around] in P3.
  assert (Mz : (x, b) :: m' = match m0 with [] => [(z, b)] | (_, _) :: r => (x, b) :: r ++ [(z, bz)] end).
  { destruct m0 as [|[y d] m0]; cbn [app] in Q3; [injection Q3 as -> _ ->|injection Q3 as -> _ ->]; reflexivity. }
  assert (Fz : map fst ((x, b) :: m') = map fst m0 ++ [z]).
  { change (map fst ((x, b) :: m')) with (map fst ((x, false) :: m')). rewrite Q3, map_app. reflexivity. }
  split; [|split; [exact P1|rewrite P2; destruct Of as (xs & z' & Ez & Hz); rewrite Fz in Ez; apply app_inj_tail in Ez as [_ ->]; exact Hz]].
  rewrite P3. destruct Se as [(xs & z' & Y & h' & Ez & Oz & Gz)|Rc]; [|rewrite Rc; apply orb_true_r].
  change (map fst ((x, b) :: m')) with (map fst ((x, false) :: m')) in Ez. rewrite Q3, map_app in Ez. apply app_inj_tail in Ez as [<- <-].
  destruct (opened_below _ [] _ _ _ [OSeen c] Oz) as (X3 & -> & O3). pose proof (r_items_opened _ _ _ _ Q1) as O4.
  cbn [app rs_open rs_header r_inside] in O3, O4. rewrite O3 in O4. injection O4 as <- _.
  assert (G : goes_on (role_of (kind_of z)) (X3 ++ [OSeen c]) = false).
  { cbn [fst] in Gz. rewrite <- Gz. destruct X3; destruct (role_of (kind_of z)); reflexivity. }
  rewrite G. reflexivity.
Qed.

(** * A stretch between delimiters, in any context *)

Definition twins (T T' : opened) : Prop :=
  match T with OHead => T' = ORound | OSeen _ => False | _ => T' = T end.
Lemma bracket_alike c st x b st1 : opens (kind_of x) <> 0%nat -> r_lexeme st x = Some (b, st1) ->
  exists T T' X st1', r_lexeme (r_inside c) x = Some (false, st1') /\
    alike (T :: rs_open st) [T'; OSeen c] X st1 st1' /\ twins T T' /\ rs_header st1 = false /\
    opened1 (base, false) x = Some (X ++ T' :: base, false).
Proof.
  unfold opened1, r_lexeme, r_open, r_mark, is_header. cbn [fst snd rs_open rs_header rs_pause r_inside].
  intros O R. destruct (kind_of x) eqn:K; try (exfalso; apply O; reflexivity); cbn [role_of] in *.
  - injection R as _ <-. destruct (rs_header st) eqn:H.
    + exists OHead, ORound, []. eexists. split; [reflexivity|]. split; [split; reflexivity|]. split; [reflexivity|]. split; reflexivity.
    + exists ORound, ORound, []. eexists. split; [reflexivity|]. split; [split; reflexivity|]. split; [reflexivity|]. split; reflexivity.
  - injection R as _ <-. rewrite (word_text x _ $"[" K eq_refl). exists OSquare, OSquare, []. eexists. split; [reflexivity|].
    split; [split; reflexivity|]. split; [reflexivity|]. split; reflexivity.
  - injection R as _ <-. rewrite (word_text x _ $"[[" K eq_refl). exists OSquare, OSquare, [OSquare]. eexists. split; [reflexivity|].
    split; [split; reflexivity|]. split; [reflexivity|]. split; reflexivity.
  - injection R as _ <-. exists OCurly, OCurly, []. eexists. split; [reflexivity|]. split; [split; reflexivity|].
    split; [reflexivity|]. split; reflexivity.
Qed.
Lemma bracket_close c T T' B st st' z b st1 : twins T T' -> alike (T :: B) [T'; OSeen c] [] st st' ->
  closes (kind_of z) <> 0%nat -> r_lexeme st z = Some (b, st1) ->
  exists st1', r_lexeme st' z = Some (b, st1') /\ rs_open st1' = [OSeen c] /\ rs_eats st1' = is_round c /\
    rs_pause st1' = NoBreak /\ rs_header st1' = false.
Proof.
  intros Tw [A A' E F P H] C R. cbn [app] in A, A'.
  assert (Ar : around (rs_open st') = around (rs_open st)) by (rewrite A, A'; destruct T; cbn in Tw; try contradiction; subst; reflexivity).
  unfold r_lexeme in *. assert (M : r_mark st' z = r_mark st z) by (unfold r_mark; rewrite P, Ar; reflexivity). rewrite M.
  unfold r_open in *. rewrite A, A' in *. cbn [goes_on].
  destruct (kind_of z) eqn:K; try (exfalso; apply C; reflexivity); cbn [role_of] in *;
    destruct T; cbn in Tw; try contradiction; subst T'; try discriminate R; injection R as <- _;
    (eexists; split; [reflexivity|]); cbn [rs_open rs_eats rs_pause rs_header goes_on around is_round orb]; auto.
Qed.
Lemma enclosed_fits c st x r z m st1 : opens (kind_of x) <> 0%nat -> closes (kind_of z) <> 0%nat ->
  LexSpec.is_comment x = false -> LexSpec.is_comment z = false ->
  r_items st (ILex x :: r ++ [ILex z]) = Some (m, st1) ->
  (exists xs h, map fst m = x :: xs ++ [z] /\
     forall X T, opened1 (base, false) x = Some (X ++ T :: base, false) -> opened_by (X ++ base, false) xs = Some (base, h)) ->
  exists b m' st', m = (x, b) :: m' /\ r_items (r_inside c) (ILex x :: r ++ [ILex z]) = Some ((x, false) :: m', st') /\
    rs_open st' = [OSeen c] /\ rs_eats st' = is_round c /\ rs_pause st' = NoBreak /\ rs_header st' = false.
Proof.
  intros Ox Cz Nx Nz R (xs & h & Em & Oi). cbn [r_items r_item] in R. rewrite Nx in R.
  destruct (r_lexeme st x) as [[b st2]|] eqn:L; [|discriminate].
  destruct (r_items st2 (r ++ [ILex z])) as [[m' st3]|] eqn:R2; [|discriminate]. injection R as <- <-.
  destruct (r_items_last _ _ _ _ _ Nz R2) as (m0 & st0 & bz & R3 & L3 & ->).
  cbn [app map fst] in Em. injection Em as Em. rewrite map_app in Em. apply app_inj_tail in Em as [Em _].
  destruct (bracket_alike c _ _ _ _ Ox L) as (T & T' & X & s2 & L' & A & Tw & Hd & O1).
  specialize (Oi X T' O1). rewrite <- Em, <- Hd in Oi.
  assert (Ar : around (T :: rs_open st) = around [T'; OSeen c]) by (destruct T; cbn in Tw; try contradiction; subst; reflexivity).
  destruct (alike_items _ _ r Ar _ _ _ _ _ _ _ A R3 Oi) as (X1 & s0 & E1 & R4 & A1).
  apply (app_inv_tail base [] X1) in E1. subst X1.
  destruct (bracket_close c T T' _ _ _ z bz _ Tw A1 Cz L3) as (s4 & L4 & P).
  exists b, (m0 ++ [(z, bz)]), s4. split; [reflexivity|]. split; [|exact P].
  cbn [r_items r_item]. rewrite Nx, L', r_items_app, R4. cbn [r_items r_item]. rewrite Nz, L4. reflexivity.
Qed.

(** * The items of a stretch *)

Definition codes (is : list item) : list text :=
  flat_map (fun i => match i with ILex x => if LexSpec.is_comment x then [] else [x] | _ => [] end) is.
Lemma codes_app a b : codes (a ++ b) = codes a ++ codes b.
Proof. apply flat_map_app. Qed.
Lemma codes_lex l : codes (map ILex l) = code l.
Proof.
  induction l as [|x l IH]; [reflexivity|]. unfold codes, code in *. cbn [map flat_map filter].
  destruct (LexSpec.is_comment x); cbn [negb app]; rewrite IH; reflexivity.
Qed.
Lemma r_items_codes is : forall st m st', r_items st is = Some (m, st') -> map fst m = codes is.
Proof.
  induction is as [|i is IH]; intros st m st' R; cbn [r_items] in R; [injection R as <- _; reflexivity|].
  destruct (r_item st i) as [[a st1]|] eqn:Ri; [|discriminate].
  destruct (r_items st1 is) as [[b st2]|] eqn:R2; [|discriminate]. injection R as <- _.
  rewrite map_app, (IH _ _ _ R2). unfold codes. cbn [flat_map]. f_equal. destruct i as [x| |]; cbn [r_item] in Ri.
  - destruct (LexSpec.is_comment x); [injection Ri as <- _; reflexivity|].
    destruct (r_lexeme st x) as [[k s]|]; [|discriminate]. injection Ri as <- _. reflexivity.
  - injection Ri as <- _. reflexivity.
  - destruct (r_semi st); [|discriminate]. injection Ri as <- _. reflexivity.
Qed.
Lemma items_from_app a : forall p b, items_from p (a ++ b) =
  match items_from p a with
  | Some (x, p') => match items_from p' b with Some (y, p'') => Some (x ++ y, p'') | None => None end
  | None => None
  end.
Proof.
  induction a as [|c a IH]; intros p b; cbn [app items_from].
  - destruct (items_from p b) as [[y q]|]; reflexivity.
  - destruct (LexSpec.see p c) as [[l p1]|]; [|reflexivity]. rewrite IH.
    destruct (items_from p1 a) as [[x p2]|]; [|reflexivity].
    destruct (items_from p2 b) as [[y p3]|]; [|reflexivity]. rewrite <- !app_assoc. reflexivity.
Qed.
Lemma break_codes c p : codes (break_of c p) = [].
Proof. unfold break_of. destruct p; [|reflexivity]. destruct (c =? LF); [reflexivity|]. destruct (c =? SEMI); reflexivity. Qed.
Lemma items_see s : forall p L q, see_all p s = Some (L, q) ->
  exists is, items_from p s = Some (is, q) /\ codes is = code L.
Proof.
  induction s as [|c s IH]; intros p L q S; cbn [see_all items_from] in *; [injection S as <- <-; exists []; auto|].
  destruct (LexSpec.see p c) as [[a p1]|]; [|discriminate].
  destruct (see_all p1 s) as [[b p2]|] eqn:S1; [|discriminate]. injection S as <- <-.
  destruct (IH _ _ _ S1) as (is & E & C). rewrite E. eexists. split; [reflexivity|].
  rewrite !codes_app, codes_lex, break_codes, C, code_app. reflexivity.
Qed.
(** The first item after a lexeme was begun. *)
Lemma first_item s : forall l t is p b, items_from (Inside l t) s = Some (is, p) -> the_end p = Some b ->
  exists y r, is ++ map ILex b = ILex (t ++ y) :: r.
Proof.
  induction s as [|c s IH]; intros l t is p b E B; cbn [items_from LexSpec.see] in E.
  - injection E as <- <-. cbn [the_end] in B. destruct (complete_lexeme l); [|discriminate]. injection B as <-.
    exists [], []. rewrite (app_nil_r t). reflexivity.
  - destruct (extend l c) as [l1|] eqn:X.
    + destruct (items_from (Inside l1 (t ++ [c])) s) as [[x q]|] eqn:E1; [|discriminate]. injection E as <- <-.
      destruct (IH _ _ _ _ _ E1 B) as (y & r & Q). exists (c :: y), r. cbn [map app break_of]. rewrite Q, <- app_assoc. reflexivity.
    + destruct (complete_lexeme l); [|discriminate]. destruct (begin c) as [p1|]; [|discriminate].
      destruct (items_from p1 s) as [[x q]|]; [|discriminate]. injection E as <- <-.
      exists [], (break_of c p1 ++ x ++ map ILex b). rewrite (app_nil_r t). cbn [map app]. rewrite <- !app_assoc. reflexivity.
Qed.
Lemma begun_item s : forall l t is l' z, items_from (Inside l t) s = Some (is, Inside l' z) ->
  exists y r, is ++ [ILex z] = ILex (t ++ y) :: r.
Proof.
  induction s as [|c s IH]; intros l t is l' z E; cbn [items_from LexSpec.see] in E.
  - injection E as <- <- <-. exists [], []. rewrite (app_nil_r t). reflexivity.
  - destruct (extend l c) as [l1|] eqn:X.
    + destruct (items_from (Inside l1 (t ++ [c])) s) as [[x q]|] eqn:E1; [|discriminate]. injection E as <- ->.
      destruct (IH _ _ _ _ _ E1) as (y & r & Q). exists (c :: y), r. cbn [map app break_of]. rewrite Q, <- app_assoc. reflexivity.
    + destruct (complete_lexeme l); [|discriminate]. destruct (begin c) as [p1|]; [|discriminate].
      destruct (items_from p1 s) as [[x q]|]; [|discriminate]. injection E as <- _.
      exists [], (break_of c p1 ++ x ++ [ILex z]). rewrite (app_nil_r t). cbn [map app]. rewrite <- !app_assoc. reflexivity.
Qed.
Lemma items_enter p c r is q : blocks p c -> items_from Between (c :: r) = Some (is, q) ->
  items_from p (c :: r) = Some (map ILex (held p) ++ is, q).
Proof.
  intros B E. pose proof (see_blocked p c B) as S. cbn [items_from] in *.
  cbn [LexSpec.see] in E. rewrite S. destruct (begin c) as [p1|]; [|discriminate].
  destruct (items_from p1 r) as [[x q']|]; [|discriminate]. injection E as <- <-. reflexivity.
Qed.

Section Items.
Variables (U : list unit) (rest : text).
Hypothesis Uok : Forall unit_ok U.
Hypothesis Utr : units_trivia U rest.
Hypothesis Ual : aligned Between (all_text U ++ rest) (all_lex U ++ []).

Lemma slice_items a us b : U = a ++ us ++ b -> us <> [] ->
  exists I1 I2 I3, RReadSpec.items (all_text U ++ rest) = Some (I1 ++ I2 ++ I3) /\
    RReadSpec.items (inner_text us) = Some I2 /\ codes I1 = all_lex a /\ codes I2 = all_lex us /\
    (exists x r, I2 = ILex x :: r /\ LexSpec.is_comment x = false) /\
    (exists r z, I2 = r ++ [ILex z] /\ LexSpec.is_comment z = false).
Proof.
  intros E N. pose proof Ual as Ual0. rewrite E in Uok, Utr, Ual. apply Forall_app in Uok as [Oa Ob].
  apply Forall_app in Ob as [Ou Ob]. pose proof (units_trivia_head _ _ _ Utr) as Ta.
  apply units_trivia_tail in Utr as Tb. apply units_trivia_head in Tb.
  rewrite all_text_app, all_lex_app, <- !app_assoc in Ual.
  destruct (step_units a Between _ _ Oa Ta Ual) as [p [Pa A]].
  rewrite all_text_app, all_lex_app, <- !app_assoc in A.
  pose proof (all_inner us) as I. pose proof (units_inner us _ Tb) as Ti.
  destruct us as [|u us]; [contradiction|]. rewrite I, <- !app_assoc in A.
  assert (Tl : trivia_ok (u_lead u) (inner_text (u :: us) ++ pieces_text (last_trail (u :: us)) ++ all_text b ++ rest)).
  { destruct Tb as [Tb _].
    change (all_text (u :: us)) with (unit_whole u ++ all_text us) in I. unfold unit_whole in I.
    rewrite <- !app_assoc in I. apply app_inv_head in I.
    pose proof (f_equal (fun x => x ++ all_text b ++ rest) I) as I'. cbv beta in I'.
    rewrite <- !app_assoc in I'. rewrite <- I'. exact Tb. }
  destruct (step_trivia _ p _ _ Tl A) as [q [Pq Aq]].
  pose proof (passes_app _ _ _ _ _ _ _ Pa Pq) as [La [Sa Ca]]. rewrite app_nil_r in Ca. cbn [held code filter app] in Ca.
  destruct (see_inner (u :: us) _ _ Ou N Ti q Aq) as [_ [[c [r [Ec [Bk Pc]]]] [L [l [z [Si [Cl [Cz El]]]]]]]].
  destruct (items_see _ _ _ _ Sa) as (Ia & Ea & Ca').
  destruct (items_see _ _ _ _ Si) as (Ii & Ei & Ci).
  destruct Ual0 as [_ [Lall [pe [be [Sall [Te Call]]]]]].
  set (post := pieces_text (last_trail (u :: us)) ++ all_text b ++ rest) in *.
  assert (Src : all_text U ++ rest = (all_text a ++ pieces_text (u_lead u)) ++ inner_text (u :: us) ++ post).
  { rewrite E, !all_text_app, I. unfold post. rewrite <- !app_assoc. reflexivity. }
  pose proof Sall as Sall0. rewrite Src, see_all_app, Sa, see_all_app in Sall. rewrite Ec in Sall, Si. rewrite (enter q c r Bk), Si in Sall.
  destruct (see_all (Inside l z) post) as [[Lp pp]|] eqn:Sp; [|discriminate]. injection Sall as Sall ->.
  destruct (items_see _ _ _ _ Sp) as (Ip & Ep & Cp).
  destruct (first_item _ _ _ _ _ _ Ep Te) as (y & r3 & F3).
  assert (Zy : z ++ y = z).
  { assert (Q : code (Lall ++ be) = all_lex U) by (rewrite Call; cbn [held code filter app]; apply app_nil_r).
    rewrite <- Sall, E, !all_lex_app, !code_app, <- !app_assoc in Q.
    rewrite <- Ca, <- El, <- !app_assoc in Q.
    rewrite <- (codes_lex be) in Q.
    rewrite <- Cp, <- codes_app, F3 in Q. repeat apply app_inv_head in Q.
    unfold codes in Q. cbn [flat_map] in Q. destruct z as [|z0 z].
    { exfalso. assert (Iz : In [] (all_lex (u :: us))) by (rewrite <- El; apply in_or_app; right; left; reflexivity).
      unfold all_lex in Iz. apply in_flat_map in Iz as (u0 & Iu & Iz). rewrite Forall_forall in Ou. destruct (Ou u0 Iu) as [F _].
      rewrite Forall_forall in F. exact (F _ Iz). }
    cbn [app LexSpec.is_comment] in Q, Cz |- *.
    rewrite Cz in Q. cbn [app] in Q. injection Q as Q. f_equal. exact Q. }
  rewrite Zy in F3. rewrite Ec in Ei.
  exists (Ia ++ map ILex (held q)), (Ii ++ [ILex z]), r3.
  split; [|split; [|split; [|split; [|split]]]].
  - unfold RReadSpec.items. rewrite Src, items_from_app, Ea, items_from_app, Ec, (items_enter q c r _ _ Bk Ei), Ep, Te.
    f_equal. rewrite <- !app_assoc. cbn [app]. rewrite F3. reflexivity.
  - unfold RReadSpec.items. rewrite Ec, Ei. cbn [the_end]. rewrite Cl. reflexivity.
  - rewrite codes_app, codes_lex, Ca', Ca. reflexivity.
  - rewrite codes_app, Ci, <- El. unfold codes. cbn [flat_map]. rewrite Cz. reflexivity.
  - cbn [items_from LexSpec.see] in Ei. unfold plain_start in Pc. apply andb_true_iff in Pc as [Pb Ph].
    apply negb_true_iff in Pb, Ph. unfold begin in Ei. rewrite Pb in Ei.
    destruct (LexSpec.start c) as [l0|]; [|discriminate].
    destruct (items_from (Inside l0 [c]) r) as [[x0 q0]|] eqn:E0; [|discriminate]. injection Ei as <- ->.
    destruct (begun_item _ _ _ _ _ _ E0) as (y0 & r0 & F0). exists ([c] ++ y0), r0. cbn [map break_of app] in F0 |- *.
    split; [exact F0|exact Ph].
  - exists Ii, z. auto.
Qed.
End Items.

(** * From R's tokens back to its lexemes *)

(** Between parentheses or brackets no line break counts. *)
Definition gathered (st : rstate) : Prop :=
  around (rs_open st) = InRound -> rs_eats st = true /\ rs_pause st = NoBreak.
Definition unmarked_brack (x : text * bool) : Prop := kind_of (fst x) = R_BRACK -> snd x = false.
Lemma gathered_items is : forall st m st', gathered st -> r_items st is = Some (m, st') -> Forall unmarked_brack m.
Proof.
  induction is as [|i is IH]; intros st m st' G R; cbn [r_items] in R; [injection R as <- _; constructor|].
  destruct (r_item st i) as [[a st1]|] eqn:Ri; [|discriminate].
  destruct (r_items st1 is) as [[b st2]|] eqn:R2; [|discriminate]. injection R as <- _.
  assert (A : gathered st1 /\ Forall unmarked_brack a).
  { destruct i as [x| |]; cbn [r_item] in Ri.
    - destruct (LexSpec.is_comment x); [injection Ri as <- <-; split; [exact G|constructor]|].
      destruct (r_lexeme st x) as [[k s]|] eqn:L; [|discriminate]. injection Ri as <- <-. split.
      + destruct (lexeme_after _ _ _ _ L) as (P & _ & E). intros Ar. rewrite E, Ar. split; [apply orb_true_r|exact P].
      + constructor; [|constructor]. intros K. cbn [fst snd] in *. unfold r_lexeme, r_open, r_mark in L. rewrite K in L. cbn [role_of] in L.
        destruct (rs_open st) as [|[]  s0] eqn:O; try discriminate L. injection L as <- _.
        destruct (G ltac:(rewrite O; reflexivity)) as [_ ->]. reflexivity.
    - injection Ri as <- <-. split; [|constructor]. unfold r_break. destruct (rs_eats st) eqn:E; [exact G|].
      intros Ar. exfalso. assert (Ar' : around (rs_open st) = InRound) by (destruct (rs_pause st); exact Ar).
      destruct (G Ar') as [Q _]. rewrite E in Q. discriminate.
    - destruct (r_semi st) as [s|] eqn:Q; [|discriminate]. injection Ri as <- <-. split; [|constructor].
      unfold r_semi in Q. destruct (rs_fresh st); [injection Q as <-; exact G|].
      destruct (rs_eats st) eqn:E; [discriminate|]. injection Q as <-. intros Ar. exfalso.
      destruct (G Ar) as [Q _]. rewrite E in Q. discriminate. }
  apply Forall_app. split; [apply A|]. exact (IH _ _ _ (proj1 A) R2).
Qed.
Lemma kind_apart x :
  match kind_of x with STRING_CONTENT | STRING_CLOSE | R_BRACK2 | UNICODE_BOM => false | _ => true end = true.
Proof.
  unfold kind_of. destruct (find _ words) as [w|] eqn:F.
  - apply find_some in F as [F _].
    assert (A : forallb (fun w => match snd w with STRING_CONTENT | STRING_CLOSE | R_BRACK2 | UNICODE_BOM => false | _ => true end)
      words = true) by reflexivity.
    rewrite forallb_forall in A. exact (A w F).
  - destruct (is_string x); [reflexivity|].
    destruct (match x with c :: _ => c =? PERCENT | [] => false end); [reflexivity|].
    destruct (numeric x); [|destruct (dot_dot x); reflexivity].
    unfold number_kind. destruct (last x 0 =? 76); [reflexivity|]. destruct (last x 0 =? 105); reflexivity.
Qed.
Lemma tokens_back n : forall s m acc, (List.length m <= n)%nat -> Forall (fun x => whole_string (fst x)) m ->
  Forall unmarked_brack m -> fold_left add_token (r_tokens s m) acc = acc ++ m.
Proof.
  induction n as [|n IH]; intros s m acc L W B.
  { destruct m; [|cbn in L; lia]. cbn. rewrite app_nil_r. reflexivity. }
  destruct m as [|[x b] r]; [cbn; rewrite app_nil_r; reflexivity|].
  inversion W as [|? ? W1 W2]; subst. inversion B as [|? ? B1 B2]; subst. cbn [fst] in W1.
  destruct (r_tokens_step s x b r) as [[s' ->]|[y [b' [r' [s' [-> [Kx [Ky ->]]]]]]]]; cbn [List.length] in L.
  - rewrite fold_left_app.
    assert (E : fold_left add_token (first_marked b (lexeme_tokens s x)) acc = acc ++ [(x, b)]).
    { unfold lexeme_tokens. pose proof (kind_apart x) as Ka.
      assert (P : kind_of x <> STRING_OPEN -> add_token acc (tk (kind_of x) x, b) = acc ++ [(x, b)]).
      { intros N. unfold add_token. cbn [t_kind t_text tk]. destruct (kind_of x); try discriminate Ka; reflexivity. }
      destruct (kind_eqb (kind_of x) STRING_OPEN) eqn:Ks.
      2:{ apply kind_eqb_neq in Ks. destruct (kind_of x); try (exact (P Ks)); contradiction. }
      apply kind_eqb_eq in Ks. rewrite Ks. pose proof (open_string x Ks) as So.
      destruct (string_tokens_cases x) as [o [m [z [Sx M]]]].
      destruct (string_parts _ _ _ _ So W1 Sx) as [_ Ex]. rewrite Sx.
      destruct M as [->|[c [_ ->]]]; cbn [app first_marked map List.concat fold_left add_token t_kind t_text tk] in *;
        rewrite !join_last_app, ?app_nil_r, <- ?app_assoc in *; rewrite <- Ex; reflexivity. }
    rewrite E, IH by (assumption || lia). rewrite <- app_assoc. reflexivity.
  - cbn [fold_left]. inversion W2; subst. inversion B2 as [|? ? B3 B4]; subst. specialize (B3 Ky). cbn [snd] in B3. subst b'.
    rewrite (bracket_text x Kx), (bracket_text y Ky). rewrite IH by (assumption || lia).
    cbn [add_token t_kind t_text tk]. rewrite <- app_assoc. reflexivity.
Qed.

Lemma tokens_marked s is m st : RReadSpec.items s = Some is -> r_items r_start is = Some (m, st) ->
  marked_lexemes (r_tokens [] m) = m.
Proof.
  intros Is R. unfold marked_lexemes. rewrite (tokens_back _ [] m [] (le_n _)); [reflexivity| |].
  - exact (r_items_whole _ _ _ _ (items_whole _ _ Is) R).
  - refine (gathered_items _ _ _ _ _ R). intros Ar. discriminate Ar.
Qed.
