(** Printing a layout shows the tokens and comments of its operations. *)
From Coq Require Import List Arith Bool NArith Lia.
From Verif Require Import Text SyntaxKind FmtTree IrModel FmtModel FmtSpec FmtProofs.
Import ListNotations.

Definition stokens (ss : list step) : list token := flat_map step_tokens ss.
Definition scomments (ss : list step) : list text := flat_map step_comments ss.

Lemma ptokens_app a b : ptokens (a ++ b) = ptokens a ++ ptokens b.
Proof. apply flat_map_app. Qed.
Lemma pcomments_app a b : pcomments (a ++ b) = pcomments a ++ pcomments b.
Proof. apply flat_map_app. Qed.

Lemma print_step_tokens st s : ptokens (fst (print_step st s)) = step_tokens s.
Proof.
  destruct s as [w| |e]; cbn [print_step fst].
  - rewrite ptokens_app. destruct w, (p_space st); cbn; try reflexivity; apply app_nil_r.
  - reflexivity.
  - destruct (p_line st), e, (p_empty st); reflexivity.
Qed.
Lemma print_step_comments st s : pcomments (fst (print_step st s)) = step_comments s.
Proof.
  destruct s as [w| |e]; cbn [print_step fst].
  - rewrite pcomments_app. destruct w, (p_space st); cbn [pcomments flat_map step_comments app];
      cbn [word_comments]; try reflexivity; apply app_nil_r.
  - reflexivity.
  - destruct (p_line st), e, (p_empty st); reflexivity.
Qed.
Lemma print_steps_shows ss : forall st,
  ptokens (fst (print_steps st ss)) = stokens ss /\
  pcomments (fst (print_steps st ss)) = scomments ss.
Proof.
  induction ss as [|s ss IH]; intros st; [split; reflexivity|].
  cbn [print_steps]. pose proof (print_step_tokens st s) as A.
  pose proof (print_step_comments st s) as B.
  destruct (print_step st s) as [o1 st1]. cbn [fst] in A, B. specialize (IH st1).
  destruct (print_steps st1 ss) as [o2 st2]. cbn [fst] in IH |- *. destruct IH as [C D].
  rewrite ptokens_app, pcomments_app, A, B, C, D. split; reflexivity.
Qed.

Lemma held_tokens held : stokens (held_steps held) = [].
Proof.
  unfold stokens, held_steps. induction held as [|[g c] held IH]; [reflexivity|].
  cbn [flat_map app]. rewrite IH. destruct g; reflexivity.
Qed.
Lemma held_comments held : scomments (held_steps held) = map snd held.
Proof.
  unfold scomments, held_steps. induction held as [|[g c] held IH]; [reflexivity|].
  cbn [flat_map app map snd]. rewrite IH. destruct g; reflexivity.
Qed.

Lemma unsuffix_tokens os : forall held, stokens (unsuffix held os) = optokens os.
Proof.
  induction os as [|x os IH]; intros held; [apply held_tokens|].
  destruct x as [s|g c]; [|exact (IH _)].
  destruct s as [w| |e]; cbn [unsuffix].
  - unfold stokens, optokens. cbn [flat_map]. f_equal. apply IH.
  - exact (IH held).
  - unfold stokens. rewrite flat_map_app. fold (stokens (held_steps held)).
    rewrite held_tokens. exact (IH []).
Qed.
Lemma unsuffix_comments c os : forall held,
  tcount c (scomments (unsuffix held os)) = tcount c (map snd held) + tcount c (opcomments os).
Proof.
  induction os as [|x os IH]; intros held.
  - cbn [unsuffix]. rewrite held_comments. cbn. lia.
  - destruct x as [s|g c']; cbn [unsuffix].
    + destruct s as [w| |e]; unfold scomments, opcomments.
      * cbn [flat_map]. rewrite !tcount_app. fold (scomments (unsuffix held os)).
        rewrite IH. unfold opcomments. lia.
      * cbn [flat_map step_comments app]. exact (IH held).
      * rewrite flat_map_app, tcount_app. fold (scomments (held_steps held)).
        rewrite held_comments. cbn [flat_map step_comments app]. f_equal. exact (IH []).
    + rewrite IH, map_app, tcount_app. cbn [map snd].
      unfold opcomments. cbn [flat_map]. rewrite tcount_app. lia.
Qed.

Lemma run_tokens os : ptokens (run os) = optokens os.
Proof.
  unfold run. destruct (print_steps_shows (unsuffix [] os) pstart) as [A _]. rewrite A.
  apply unsuffix_tokens.
Qed.
Lemma run_comments os c : tcount c (pcomments (run os)) = tcount c (opcomments os).
Proof.
  unfold run. destruct (print_steps_shows (unsuffix [] os) pstart) as [_ A]. rewrite A.
  rewrite unsuffix_comments. reflexivity.
Qed.

(** * Comments run to the end of their line *)

Fixpoint sline_end (ss : list step) : Prop :=
  match ss with
  | [] | SLine _ :: _ | SWord WBreak :: _ => True
  | SSpace :: r | SWord (WComment _) :: r => sline_end r
  | SWord _ :: _ => False
  end.
Fixpoint sclosed (ss : list step) : Prop :=
  match ss with
  | [] => True
  | SWord (WComment _) :: r => sline_end r /\ sclosed r
  | _ :: r => sclosed r
  end.

Lemma held_line_end held r : sline_end r -> sline_end (held_steps held ++ r).
Proof.
  intros H. induction held as [|[g c] held IH]; [exact H|].
  cbn [held_steps flat_map]. destruct g; cbn; [exact IH|exact I].
Qed.
Lemma held_sclosed held r : sline_end r -> sclosed r -> sclosed (held_steps held ++ r).
Proof.
  intros L H. induction held as [|[g c] held IH]; [exact H|].
  cbn [held_steps flat_map]. destruct g; cbn [gap_step app sclosed];
    (split; [apply held_line_end, L|exact IH]).
Qed.
Lemma unsuffix_closed os : forall held, closed os -> sclosed (unsuffix held os).
Proof.
  induction os as [|x os IH]; intros held C.
  - cbn [unsuffix]. rewrite <- (app_nil_r (held_steps held)). apply held_sclosed; exact I.
  - destruct x as [s|g c]; [|exact (IH _ C)].
    destruct s as [w| |e]; cbn [unsuffix].
    + destruct w; try exact (IH held C). cbn [closed] in C.
      destruct os as [|[[w| |e]|g c'] os]; try contradiction.
      split; [|exact (IH held C)]. cbn [unsuffix]. apply held_line_end. exact I.
    + exact (IH held C).
    + apply held_sclosed; [exact I|]. exact (IH [] C).
Qed.

(** Once a word is on the line, a line break is printed. *)
Lemma print_line_end ss : forall st,
  p_line st = true -> sline_end ss -> to_line_end (fst (print_steps st ss)).
Proof.
  induction ss as [|s ss IH]; intros st L H; [exact I|].
  cbn [print_steps]. destruct s as [w| |e].
  - destruct w; cbn [sline_end] in H; try contradiction.
    + cbn [print_step]. specialize (IH {| p_line := true; p_space := false; p_empty := false |}
        eq_refl H). destruct (print_steps _ ss) as [o2 st2]. cbn [fst] in IH |- *.
      destruct (p_space st); exact IH.
    + cbn [print_step]. destruct (print_steps _ ss) as [o2 st2].
      destruct (p_space st); exact I.
  - cbn [print_step]. cbn [sline_end] in H.
    specialize (IH {| p_line := p_line st; p_space := p_space st || p_line st;
                      p_empty := p_empty st |} L H).
    destruct (print_steps _ ss) as [o2 st2]. exact IH.
  - cbn [print_step]. rewrite L. destruct (e && negb false);
      destruct (print_steps _ ss) as [o2 st2]; exact I.
Qed.
Lemma print_closed ss : forall st, sclosed ss -> comments_closed (fst (print_steps st ss)).
Proof.
  induction ss as [|s ss IH]; intros st H; [exact I|].
  cbn [print_steps].
  destruct s as [w| |e].
  - destruct (match w with WComment _ => true | _ => false end) eqn:W.
    + destruct w; try discriminate. cbn [sclosed] in H. destruct H as [H1 H2].
      cbn [print_step].
      pose proof (print_line_end ss {| p_line := true; p_space := false; p_empty := false |}
        eq_refl H1) as X.
      specialize (IH {| p_line := true; p_space := false; p_empty := false |} H2).
      destruct (print_steps _ ss) as [o2 st2]. cbn [fst] in X, IH |- *.
      destruct (p_space st); cbn; split; assumption.
    + assert (H2 : sclosed ss) by (destruct w; try discriminate; exact H).
      cbn [print_step].
      specialize (IH {| p_line := match w with WBreak => false | _ => true end;
                        p_space := false; p_empty := false |} H2).
      destruct (print_steps _ ss) as [o2 st2]. cbn [fst] in IH |- *.
      destruct w; try discriminate; destruct (p_space st); exact IH.
  - cbn [print_step].
    specialize (IH {| p_line := p_line st; p_space := p_space st || p_line st;
                      p_empty := p_empty st |} H).
    destruct (print_steps _ ss) as [o2 st2]. exact IH.
  - cbn [print_step]. cbn [sclosed] in H.
    destruct (e && negb (if p_line st then false else p_empty st)).
    + specialize (IH {| p_line := false; p_space := false; p_empty := true |} H).
      destruct (print_steps _ ss) as [o2 st2]. cbn [fst] in IH |- *.
      destruct (p_line st); exact IH.
    + specialize (IH {| p_line := false; p_space := false;
                        p_empty := if p_line st then false else p_empty st |} H).
      destruct (print_steps _ ss) as [o2 st2]. cbn [fst] in IH |- *.
      destruct (p_line st); exact IH.
Qed.
Lemma run_closed os : closed os -> comments_closed (run os).
Proof. intros H. apply print_closed, unsuffix_closed, H. Qed.
