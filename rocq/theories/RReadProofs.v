(** Facts about R's reading of a text (RReadSpec.v, RTextSpec.v). *)
From Coq Require Import List NArith Bool Arith Lia String.
From Verif Require Import Text TextFacts LineEndingSpec LineEndingProofs SettingsModel SyntaxKind FmtTree
  IrModel FmtSpec LexSpec LexProofs LexRunProofs RReadSpec FmtLineSpec RTextSpec.
Import ListNotations.
Local Open Scope N_scope.

Definition lex_items (l : list text) : list item := map ILex l.

(** * Items *)

Lemma items_from_app a : forall p b, items_from p (a ++ b) =
  match items_from p a with
  | Some (x, p') => match items_from p' b with Some (y, p'') => Some (x ++ y, p'') | None => None end
  | None => None
  end.
Proof.
  induction a as [|c a IH]; intros p b; cbn [app items_from].
  - destruct (items_from p b) as [[y p'']|]; reflexivity.
  - destruct (LexSpec.see p c) as [[x p1]|]; [|reflexivity]. rewrite IH.
    destruct (items_from p1 a) as [[x1 p2]|]; [|reflexivity].
    destruct (items_from p2 b) as [[y p3]|]; [|reflexivity]. rewrite <- !app_assoc. reflexivity.
Qed.
Lemma items_see s : forall p is p', items_from p s = Some (is, p') ->
  exists b, see_all p s = Some (b, p').
Proof.
  induction s as [|c s IH]; intros p is p' H; cbn [items_from see_all] in *.
  - injection H as _ <-. eauto.
  - destruct (LexSpec.see p c) as [[x p1]|]; [|discriminate].
    destruct (items_from p1 s) as [[y p2]|] eqn:R; [|discriminate]. injection H as _ <-.
    destruct (IH _ _ _ R) as [b ->]. eauto.
Qed.
(** A text without anything between lexemes. *)
Lemma items_kept s : forall p b p', see_all p s = Some (b, p') ->
  (total b + total (held p') = total (held p) + List.length s)%nat ->
  items_from p s = Some (lex_items b, p').
Proof.
  induction s as [|c s IH]; intros p b p' H T; cbn [see_all items_from] in *.
  - injection H as <- <-. reflexivity.
  - destruct (LexSpec.see p c) as [[x p1]|] eqn:E; [|discriminate].
    destruct (see_all p1 s) as [[y p2]|] eqn:R; [|discriminate]. injection H as <- <-.
    rewrite total_app in T. cbn [List.length] in T. pose proof (see_total _ _ _ _ E) as T1.
    pose proof (see_all_total _ _ _ _ R) as T2.
    destruct (see_kept _ _ _ _ E ltac:(lia)) as [N _].
    rewrite (IH _ _ _ R ltac:(lia)). destruct p1 as [|l t]; [contradiction|].
    cbn [break_of app]. unfold lex_items. rewrite map_app. reflexivity.
Qed.
Lemma items_enter p c r : blocks p c ->
  items_from p (c :: r) =
  match items_from Between (c :: r) with
  | Some (x, p') => Some (lex_items (held p) ++ x, p')
  | None => None
  end.
Proof.
  intros B. cbn [items_from]. rewrite (see_blocked p c B), (see_blocked Between c I).
  destruct (begin c) as [p1|]; [|reflexivity].
  destruct (items_from p1 r) as [[y p2]|]; reflexivity.
Qed.
Definition spacing (c : char) : Prop := c = 32 \/ c = 9.
Lemma items_between s : Forall spacing s -> items_from Between s = Some ([], Between).
Proof.
  induction 1 as [|c s [->| ->] F IH]; [reflexivity| |]; cbn [items_from]; 
    change (LexSpec.see Between _) with (Some (@nil text, Between)); cbv iota; rewrite IH; reflexivity.
Qed.
Lemma items_spaces p c s : lets no_char p -> Forall spacing (c :: s) ->
  items_from p (c :: s) = Some (lex_items (held p), Between).
Proof.
  intros L F. inversion F as [|? ? C F']; subst. cbn [items_from].
  rewrite (see_blank p c L) by (destruct C as [->| ->]; reflexivity).
  rewrite (items_between s F'). destruct C as [->| ->]; cbn; rewrite app_nil_r; reflexivity.
Qed.

(** * Reading *)

Lemma r_items_app a : forall st b, r_items st (a ++ b) =
  match r_items st a with
  | Some (x, st1) => match r_items st1 b with Some (y, st2) => Some (x ++ y, st2) | None => None end
  | None => None
  end.
Proof.
  induction a as [|i a IH]; intros st b; cbn [app r_items].
  - destruct (r_items st b) as [[y st2]|]; reflexivity.
  - destruct (r_item st i) as [[x st1]|]; [|reflexivity]. rewrite IH.
    destruct (r_items st1 a) as [[x1 st2]|]; [|reflexivity].
    destruct (r_items st2 b) as [[y st3]|]; [|reflexivity]. rewrite <- app_assoc. reflexivity.
Qed.
Lemma r_items_cat st a x st1 b y st2 : r_items st a = Some (x, st1) -> r_items st1 b = Some (y, st2) ->
  r_items st (a ++ b) = Some (x ++ y, st2).
Proof. intros A B. rewrite r_items_app, A, B. reflexivity. Qed.
Lemma r_items_one st i x st1 : r_item st i = Some (x, st1) -> r_items st [i] = Some (x, st1).
Proof. intros E. cbn [r_items]. rewrite E, app_nil_r. reflexivity. Qed.

(** ** What stands around a text matters only by its kind *)

Definition with_open (s : list opened) (st : rstate) : rstate :=
  {| rs_open := s; rs_eats := rs_eats st; rs_fresh := rs_fresh st; rs_pause := rs_pause st;
     rs_header := rs_header st |}.
Definition behind (c : context) (s : list opened) (st st' : rstate) : Prop :=
  exists a, rs_open st = a ++ [OSeen c] /\ st' = with_open (a ++ s) st.
Lemma around_behind c s a : around s = c -> around (a ++ s) = around (a ++ [OSeen c]).
Proof. intros <-. destruct a as [|x a]; reflexivity. Qed.

Lemma r_open_behind c s a st st' x o : rs_open st = a ++ [OSeen c] -> rs_open st' = a ++ s ->
  rs_header st' = rs_header st -> r_open st x = Some o ->
  exists a', o = a' ++ [OSeen c] /\ r_open st' x = Some (a' ++ s) /\
    goes_on (role_of (kind_of x)) (rs_open st') = goes_on (role_of (kind_of x)) (rs_open st).
Proof.
  intros O O' H. unfold r_open. rewrite O, O', H.
  destruct (role_of (kind_of x)) eqn:R; intros E;
    try (injection E as <-; eexists; split; [|split; reflexivity]; reflexivity).
  - injection E as <-. exists ((if rs_header st then OHead else ORound) :: a). auto.
  - injection E as <-. exists (map (fun _ => OSquare) x ++ a). rewrite <- !app_assoc. auto.
  - injection E as <-. exists (OCurly :: a). auto.
  - destruct a as [|[] a]; try discriminate; cbn [app] in *; injection E as <-; exists a; auto.
  - destruct a as [|[] a]; try discriminate; cbn [app] in *; injection E as <-; exists a; auto.
  - destruct a as [|[] a]; try discriminate; cbn [app] in *; injection E as <-; exists a; auto.
Qed.
Lemma r_lexeme_behind c s a st st' x b st1 : around s = c ->
  rs_open st = a ++ [OSeen c] -> rs_open st' = a ++ s -> rs_header st' = rs_header st ->
  r_lexeme st x = Some (b, st1) ->
  exists st1', r_lexeme st' x = Some (r_mark st' x, st1') /\ behind c s st1 st1'.
Proof.
  intros A O O' H. unfold r_lexeme. destruct (r_open st x) as [o|] eqn:E; [|discriminate].
  destruct (r_open_behind c s a st st' x o O O' H E) as [a' [-> [-> G]]].
  intros X. injection X as <- <-. eexists. split; [reflexivity|]. exists a'. split; [reflexivity|].
  unfold with_open. cbn [rs_open rs_eats rs_fresh rs_pause rs_header].
  rewrite G, (around_behind c s a' A). reflexivity.
Qed.
Lemma r_mark_behind c s st st' x : around s = c -> behind c s st st' -> r_mark st' x = r_mark st x.
Proof.
  intros A [a [O ->]]. unfold r_mark. cbn [with_open rs_open rs_pause].
  rewrite O, (around_behind c s a A). reflexivity.
Qed.
Lemma r_items_behind c s : around s = c -> forall is st st' m st1,
  behind c s st st' -> r_items st is = Some (m, st1) ->
  exists st1', r_items st' is = Some (m, st1') /\ behind c s st1 st1'.
Proof.
  intros A. induction is as [|i is IH]; intros st st' m st1 B H; cbn [r_items] in *.
  - injection H as <- <-. eauto.
  - destruct (r_item st i) as [[x st2]|] eqn:E; [|discriminate].
    assert (N : exists st2', r_item st' i = Some (x, st2') /\ behind c s st2 st2').
    { destruct i as [t| |]; cbn [r_item] in *.
      - destruct (is_comment t); [injection E as <- <-; eauto|].
        destruct (r_lexeme st t) as [[b st3]|] eqn:L; [|discriminate]. injection E as <- <-.
        pose proof B as [a [O Eq]].
        destruct (r_lexeme_behind c s a st st' t b st3 A O) as [st3' [L' B']];
          try (rewrite Eq; reflexivity); [exact L|].
        rewrite L', (r_mark_behind c s st st' t A B). exists st3'. split; [|exact B'].
        unfold r_lexeme in L. destruct (r_open st t); [|discriminate]. injection L as <- _. reflexivity.
      - injection E as <- <-. destruct B as [a [O ->]]. eexists. split; [reflexivity|].
        unfold r_break. cbn [with_open rs_eats rs_pause].
        destruct (rs_eats st); [exists a; auto|]. destruct (rs_pause st) eqn:P; exists a; auto.
      - destruct (r_semi st) as [st3|] eqn:L; [|discriminate]. injection E as <- <-.
        destruct B as [a [O ->]]. unfold r_semi in *. cbn [with_open rs_eats rs_fresh].
        destruct (rs_fresh st); [injection L as <-; eexists; split; [reflexivity|exists a; auto]|].
        destruct (rs_eats st); [discriminate|]. injection L as <-.
        eexists; split; [reflexivity|exists a; auto]. }
    destruct N as [st2' [E' B2]]. rewrite E'.
    destruct (r_items st2 is) as [[y st3]|] eqn:R; [|discriminate]. injection H as <- <-.
    destruct (IH st2 st2' y st3 B2 R) as [st3' [-> B3]]. eauto.
Qed.
