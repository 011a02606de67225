(** Facts about [Text]. *)
From Coq Require Import List NArith Lia Bool Arith.
From Verif Require Import Text.
Import ListNotations.

Lemma utf8_len_pos : forall c, 1 <= utf8_len c.
Proof.
  intro c. unfold utf8_len.
  destruct (c <? 128)%N; [lia|].
  destruct (c <? 2048)%N; [lia|].
  destruct (c <? 65536)%N; lia.
Qed.

Lemma utf8_len_le4 : forall c, utf8_len c <= 4.
Proof.
  intro c. unfold utf8_len.
  destruct (c <? 128)%N; [lia|].
  destruct (c <? 2048)%N; [lia|].
  destruct (c <? 65536)%N; lia.
Qed.

Lemma blen_app : forall a b, blen (a ++ b) = blen a + blen b.
Proof. induction a as [|c a IH]; intro b; cbn; [reflexivity|]. rewrite IH. lia. Qed.

Lemma blen_nil_inv : forall t, blen t = 0 -> t = [].
Proof.
  intros [|c t] H; [reflexivity|]. cbn in H.
  pose proof (utf8_len_pos c). lia.
Qed.

Lemma blen_length : forall t, length t <= blen t.
Proof.
  induction t as [|c t IH]; cbn; [lia|]. pose proof (utf8_len_pos c). lia.
Qed.

Lemma split_at_0 : forall t, split_at 0 t = Some ([], t).
Proof. destruct t; reflexivity. Qed.

Lemma split_at_app : forall a b, split_at (blen a) (a ++ b) = Some (a, b).
Proof.
  induction a as [|c a IH]; intro b; [apply split_at_0|].
  cbn [blen app]. pose proof (utf8_len_pos c) as Hp.
  destruct (utf8_len c + blen a) as [|n] eqn:E; [lia|].
  cbn [split_at]. rewrite <- E.
  replace (utf8_len c <=? utf8_len c + blen a) with true
    by (symmetry; apply Nat.leb_le; lia).
  replace (utf8_len c + blen a - utf8_len c) with (blen a) by lia.
  rewrite IH. reflexivity.
Qed.

Lemma split_at_sound : forall t n a b,
  split_at n t = Some (a, b) -> t = a ++ b /\ blen a = n.
Proof.
  induction t as [|c t IH]; intros n a b H.
  - destruct n; cbn in H; [|discriminate]. inversion H; subst. auto.
  - destruct n as [|n].
    + cbn in H. inversion H; subst. auto.
    + cbn [split_at] in H.
      destruct (utf8_len c <=? S n) eqn:E; [|discriminate].
      apply Nat.leb_le in E.
      destruct (split_at (S n - utf8_len c) t) as [[a' b']|] eqn:E2; [|discriminate].
      inversion H; subst. apply IH in E2. destruct E2 as [E2 E3]. subst t.
      split; [reflexivity|]. cbn [blen]. lia.
Qed.

Lemma split_at_iff : forall t n a b,
  split_at n t = Some (a, b) <-> (t = a ++ b /\ blen a = n).
Proof.
  intros. split; [apply split_at_sound|].
  intros [-> <-]. apply split_at_app.
Qed.

Lemma app_split_blen : forall a b c d : text,
  a ++ b = c ++ d -> blen a <= blen c -> exists m, c = a ++ m /\ b = m ++ d.
Proof.
  induction a as [|x a IH]; intros b c d H Hl.
  - exists c. split; [reflexivity|exact H].
  - destruct c as [|y c].
    + cbn in Hl. pose proof (utf8_len_pos x). lia.
    + cbn in H. inversion H; subst. cbn in Hl.
      destruct (IH b c d) as [m [-> ->]]; [assumption|lia|].
      exists m. split; reflexivity.
Qed.

Lemma app_eq_blen : forall a b c d : text,
  a ++ b = c ++ d -> blen a = blen c -> a = c /\ b = d.
Proof.
  intros a b c d H Hl.
  destruct (app_split_blen a b c d H) as [m [-> ->]]; [lia|].
  rewrite blen_app in Hl. assert (blen m = 0) as Hm by lia.
  apply blen_nil_inv in Hm. subst. rewrite app_nil_r. split; reflexivity.
Qed.

Lemma split_at_None_gt : forall t n, blen t < n -> split_at n t = None.
Proof.
  intros t n H. destruct (split_at n t) as [[a b]|] eqn:E; [|reflexivity].
  apply split_at_sound in E. destruct E as [-> <-]. rewrite blen_app in H. lia.
Qed.

Lemma text_eqb_eq : forall a b, text_eqb a b = true <-> a = b.
Proof.
  intros a b. unfold text_eqb. destruct (list_eq_dec N.eq_dec a b); split; congruence.
Qed.

Lemma text_eqb_refl : forall a, text_eqb a a = true.
Proof. intro a. apply text_eqb_eq. reflexivity. Qed.
