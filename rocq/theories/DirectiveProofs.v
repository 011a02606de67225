From Coq Require Import List NArith Bool String Lia.
From Verif Require Import Text TextFacts DirectiveModel DirectiveSpec.
Import ListNotations.

Lemma whitespace_iff : forall c, is_whitespace c = true <-> In c blanks.
Proof.
  intro c. unfold is_whitespace. rewrite !orb_true_iff, !andb_true_iff, !N.leb_le, !N.eqb_eq. unfold blanks. cbn [In]. split.
  - intro H. destruct (N.le_gt_cases c 13) as [L|L].
    + assert (c = 9 \/ c = 10 \/ c = 11 \/ c = 12 \/ c = 13)%N by lia. intuition.
    + destruct (N.le_gt_cases 8192 c) as [L2|L2].
      * destruct (N.le_gt_cases c 8202) as [L3|L3].
        -- assert (c = 8192 \/ c = 8193 \/ c = 8194 \/ c = 8195 \/ c = 8196 \/ c = 8197 \/ c = 8198 \/ c = 8199 \/ c = 8200 \/ c = 8201 \/ c = 8202)%N by lia. intuition.
        -- assert (c = 8232 \/ c = 8233 \/ c = 8239 \/ c = 8287 \/ c = 12288)%N by lia. intuition.
      * assert (c = 32 \/ c = 133 \/ c = 160 \/ c = 5760)%N by lia. intuition.
  - intro H. lia.
Qed.

Definition headed (p : char -> bool) (t : text) : Prop := match t with [] => True | c :: _ => p c = false end.

Lemma trim_start_spec : forall p t, exists w, t = w ++ trim_start_matches p t /\ (forall c, In c w -> p c = true) /\ headed p (trim_start_matches p t).
Proof.
  intros p t. induction t as [|c t [w [E [H1 H2]]]]; [exists []; cbn; intuition|]. cbn. destruct (p c) eqn:Ep.
  - exists (c :: w). cbn. split; [congruence|]. split; [|exact H2]. intros x [<-|H]; auto.
  - exists []. cbn. intuition.
Qed.

Lemma trim_start_app : forall p w t, (forall c, In c w -> p c = true) -> headed p t -> trim_start_matches p (w ++ t) = t.
Proof.
  intros p w t H Hd. induction w as [|c w IH]; cbn.
  - destruct t as [|c t]; [reflexivity|]. cbn in *. rewrite Hd. reflexivity.
  - rewrite (H c) by (left; reflexivity). apply IH. intros x Hx. apply H. right. exact Hx.
Qed.

Lemma trim_end_app : forall w t, (forall c, In c w -> is_whitespace c = true) -> headed is_whitespace (rev t) -> trim_end (t ++ w) = t.
Proof.
  intros w t H Hd. unfold trim_end. rewrite rev_app_distr, trim_start_app; [apply rev_involutive| |exact Hd].
  intros c Hc. apply H. apply in_rev. exact Hc.
Qed.

Lemma trim_spec : forall t, exists a b, t = a ++ trim t ++ b /\ (forall c, In c a -> is_whitespace c = true) /\ (forall c, In c b -> is_whitespace c = true).
Proof.
  intro t. destruct (trim_start_spec is_whitespace t) as [a [E [H _]]]. exists a.
  destruct (trim_start_spec is_whitespace (rev (trim_start_matches is_whitespace t))) as [b [E2 [H2 _]]]. exists (rev b).
  split; [|split; [exact H|intros c Hc; apply H2; apply in_rev; exact Hc]].
  unfold trim, trim_end. rewrite <- rev_app_distr, <- E2, rev_involutive. exact E.
Qed.

Lemma split_once_spec : forall sep t a b, split_once sep t = Some (a, b) <-> t = a ++ sep :: b /\ ~ In sep a.
Proof.
  intros sep. induction t as [|c t IH]; intros a b; cbn.
  - split; [discriminate|]. intros [H _]. destruct a; discriminate.
  - destruct (N.eqb_spec c sep) as [->|Hc].
    + split.
      * intro H. injection H as <- <-. split; [reflexivity|intros []].
      * intros [H N]. destruct a as [|x a]; [injection H as <-; reflexivity|]. injection H as <- _. exfalso. apply N. left. reflexivity.
    + destruct (split_once sep t) as [[a' b']|] eqn:E.
      * split.
        -- intro H. injection H as <- <-. destruct (proj1 (IH a' b') eq_refl) as [-> N]. split; [reflexivity|]. intros [H|H]; [congruence|tauto].
        -- intros [H N]. destruct a as [|x a]; [injection H as H _; contradiction|]. injection H as <- H.
           assert (Some (a', b') = Some (a, b)) as Q by (apply IH; split; [exact H|intro Q; apply N; right; exact Q]). injection Q as -> ->. reflexivity.
      * split; [discriminate|]. intros [H N]. destruct a as [|x a]; [injection H as H _; contradiction|]. injection H as <- H.
        assert (None = Some (a, b)) as Q by (apply IH; split; [exact H|intro Q; apply N; right; exact Q]). discriminate.
Qed.

Lemma starts_with_spec : forall p t, starts_with p t = true <-> exists r, t = p ++ r.
Proof.
  induction p as [|x p IH]; intro t; cbn; [split; [intros _; exists t; reflexivity|reflexivity]|]. destruct t as [|y t].
  - split; [discriminate|intros [r H]; discriminate].
  - rewrite andb_true_iff, N.eqb_eq, IH. split.
    + intros [-> [r ->]]. exists r. reflexivity.
    + intros [r H]. injection H as -> ->. split; [reflexivity|exists r; reflexivity].
Qed.

Lemma trim_comment_some : forall t s, trim_comment t = Some s -> exists h w, hashes h /\ blank w /\ t = h ++ w ++ s.
Proof.
  intros t s H. destruct t as [|c r]; [discriminate|]. cbn in H. destruct (N.eqb_spec c HASH) as [->|]; [|discriminate].
  injection H as H. destruct (trim_start_spec (fun c => (c =? HASH)%N) r) as [h [E1 [H1 _]]].
  destruct (trim_start_spec is_whitespace (trim_start_matches (fun c => (c =? HASH)%N) r)) as [w [E2 [H2 _]]].
  rewrite H in E2. exists (HASH :: h), w. split; [|split].
  - split; [discriminate|]. intros x [<-|Hx]; [reflexivity|]. specialize (H1 x Hx). cbn in H1. apply N.eqb_eq in H1. exact H1.
  - intros x Hx. apply whitespace_iff. apply H2. exact Hx.
  - cbn. f_equal. rewrite E1. f_equal. exact E2.
Qed.

Lemma trim_comment_app : forall h w s, hashes h -> blank w -> headed is_whitespace s -> (match s with c :: _ => c <> HASH | [] => True end) ->
  trim_comment (h ++ w ++ s) = Some s.
Proof.
  intros h w s [H0 H] Hw Hs Hh. destruct h as [|c h]; [congruence|]. cbn.
  rewrite (H c) by (left; reflexivity). cbn. rewrite trim_start_app.
  - rewrite trim_start_app; [reflexivity| |exact Hs]. intros x Hx. apply whitespace_iff. apply Hw. exact Hx.
  - intros x Hx. apply N.eqb_eq. apply H. right. exact Hx.
  - destruct w as [|x w]; cbn.
    + destruct s as [|x s]; [exact I|]. cbn. apply N.eqb_neq. exact Hh.
    + assert (In x blanks) as Q by (apply Hw; left; reflexivity). apply N.eqb_neq. intros ->. cbn in Q. intuition discriminate.
Qed.

Lemma format_directive_iff : forall t d, parse_format_directive t = Some d <-> t = command d.
Proof.
  intros t d. unfold parse_format_directive. split.
  - destruct (text_eqb t $"skip") eqn:E1; [apply text_eqb_eq in E1; intro H; injection H as <-; exact E1|].
    destruct (text_eqb t $"skip file") eqn:E2; [apply text_eqb_eq in E2; intro H; injection H as <-; exact E2|].
    destruct (text_eqb t $"table") eqn:E3; [apply text_eqb_eq in E3; intro H; injection H as <-; exact E3|]. discriminate.
  - intros ->. destruct d; reflexivity.
Qed.

Lemma directive_iff : forall t d, parse_comment_directive t = Some d <-> is_directive t d.
Proof.
  intros t d. split.
  - unfold parse_comment_directive. intro H. destruct (trim_comment t) as [s|] eqn:E1; [|discriminate].
    destruct (split_once COLON s) as [[cat r]|] eqn:E2; [|discriminate]. apply split_once_spec in E2. destruct E2 as [-> _].
    destruct (text_eqb cat $"fmt") eqn:E3; [|discriminate]. apply text_eqb_eq in E3. subst cat.
    apply format_directive_iff in H. destruct (trim_comment_some _ _ E1) as [h [w [Hh [Hw ->]]]].
    destruct (trim_spec r) as [a [b [Er [Ha Hb]]]]. rewrite H in Er.
    exists h, w, a, b. split; [exact Hh|]. split; [exact Hw|]. split; [intros x Hx; apply whitespace_iff; auto|]. split; [intros x Hx; apply whitespace_iff; auto|].
    do 2 f_equal. rewrite Er. reflexivity.
  - intros [h [w1 [w2 [w3 [Hh [H1 [H2 [H3 ->]]]]]]]]. unfold parse_comment_directive.
    rewrite trim_comment_app by (first [assumption|reflexivity|discriminate]).
    assert (split_once COLON ($"fmt:" ++ w2 ++ command d ++ w3) = Some ($"fmt", w2 ++ command d ++ w3)) as ->.
    { apply split_once_spec. split; [reflexivity|]. intro H. cbn in H. intuition discriminate. }
    assert (trim (w2 ++ command d ++ w3) = command d) as ->.
    { unfold trim. rewrite trim_start_app.
      - apply trim_end_app; [intros x Hx; apply whitespace_iff; apply H3; exact Hx|destruct d; reflexivity].
      - intros x Hx. apply whitespace_iff. apply H2. exact Hx.
      - destruct d; reflexivity. }
    cbn [text_eqb]. rewrite text_eqb_refl. apply format_directive_iff. reflexivity.
Qed.

Lemma special_iff : forall t d, parse_special_skip_file t = Some d <-> d = DSkipFile /\ is_generated t.
Proof.
  intros t d. unfold parse_special_skip_file. split.
  - destruct (trim_comment t) as [s|] eqn:E; [|discriminate]. destruct (starts_with $"Generated by" s) eqn:E2; [|discriminate].
    intro H. injection H as <-. split; [reflexivity|]. apply starts_with_spec in E2. destruct E2 as [r ->].
    destruct (trim_comment_some _ _ E) as [h [w [Hh [Hw ->]]]]. exists h, w, r. auto.
  - intros [-> [h [w [r [Hh [Hw ->]]]]]]. rewrite trim_comment_app by (first [assumption|reflexivity|discriminate]).
    assert (starts_with $"Generated by" ($"Generated by" ++ r) = true) as -> by (apply starts_with_spec; exists r; reflexivity). reflexivity.
Qed.

Lemma directive_unique : forall t d1 d2, is_directive t d1 -> is_directive t d2 -> d1 = d2.
Proof. intros t d1 d2 H1 H2. apply directive_iff in H1, H2. congruence. Qed.

Lemma directive_not_generated : forall t d, is_directive t d -> ~ is_generated t.
Proof.
  intros t d [h [w1 [w2 [w3 [Hh [H1 [_ [_ E]]]]]]]] [h2 [w [r [Hh2 [Hw E2]]]]].
  assert (trim_comment t = Some ($"fmt:" ++ w2 ++ command d ++ w3)) as A by (rewrite E; apply trim_comment_app; first [assumption|reflexivity|discriminate]).
  assert (trim_comment t = Some ($"Generated by" ++ r)) as B by (rewrite E2; apply trim_comment_app; first [assumption|reflexivity|discriminate]).
  rewrite A in B. discriminate.
Qed.
