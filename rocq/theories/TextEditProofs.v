From Coq Require Import List NArith Bool Arith Lia Permutation.
From Verif Require Import Text TextFacts DocsModel DocsProofs TextEditModel TextEditSpec.
Import ListNotations.

(* ---------- stable sorting ---------- *)
Section Sort.
  Context {A : Type} (le : A -> A -> bool).
  Context (le_total : forall a b, le a b = true \/ le b a = true).
  Context (le_trans : forall a b c, le a b = true -> le b c = true -> le a c = true).

  Definition lower (x : A) (l : list A) : Prop := Forall (fun y => le x y = true) l.
  Fixpoint sorted (l : list A) : Prop := match l with [] => True | x :: r => lower x r /\ sorted r end.

  Lemma insert_perm : forall x l, Permutation (x :: l) (insert_by le x l).
  Proof.
    intros x. induction l as [|y l IH]; cbn; [reflexivity|]. destruct (le x y); [reflexivity|].
    rewrite perm_swap. apply perm_skip. exact IH.
  Qed.

  Lemma sort_perm : forall l, Permutation l (sort_by le l).
  Proof.
    induction l as [|x l IH]; cbn; [reflexivity|]. rewrite <- insert_perm. apply perm_skip. exact IH.
  Qed.

  Lemma insert_sorted : forall x l, sorted l -> sorted (insert_by le x l).
  Proof.
    intros x. induction l as [|y l IH]; cbn; intro H; [repeat constructor|].
    destruct H as [Hy Hl]. destruct (le x y) eqn:E.
    - split; [|split; assumption]. constructor; [exact E|]. eapply Forall_impl; [|exact Hy]. intros z Hz. eapply le_trans; eassumption.
    - split; [|apply IH; exact Hl]. apply Forall_forall. intros z Hz.
      apply (Permutation_in _ (Permutation_sym (insert_perm x l))) in Hz. destruct Hz as [<-|Hz].
      + destruct (le_total x y) as [H|H]; [congruence|exact H].
      + unfold lower in Hy. rewrite Forall_forall in Hy. apply Hy. exact Hz.
  Qed.

  Lemma sort_sorted : forall l, sorted (sort_by le l).
  Proof. induction l as [|x l IH]; cbn; [exact I|]. apply insert_sorted. exact IH. Qed.

  (* a predicate that does not separate elements of equal key; order inside one key is kept *)
  Definition class (p : A -> bool) : Prop := forall x y, p x = true -> p y = true -> le x y = true.

  Lemma insert_filter : forall p x l, class p -> filter p (insert_by le x l) = filter p (x :: l).
  Proof.
    intros p x l Hp. induction l as [|y l IH]; cbn [insert_by]; [reflexivity|].
    destruct (le x y) eqn:E; [reflexivity|]. cbn [filter] in *. rewrite IH.
    destruct (p x) eqn:Px; [|reflexivity]. destruct (p y) eqn:Py; [|reflexivity].
    rewrite (Hp x y Px Py) in E. discriminate.
  Qed.

  Lemma sort_filter : forall p l, class p -> filter p (sort_by le l) = filter p l.
  Proof.
    intros p l Hp. induction l as [|x l IH]; cbn [sort_by]; [reflexivity|].
    rewrite insert_filter by exact Hp. cbn [filter]. rewrite IH. reflexivity.
  Qed.

  Lemma sort_id : forall l, sorted l -> sort_by le l = l.
  Proof.
    induction l as [|x l IH]; cbn; [reflexivity|]. intros [Hx Hl]. rewrite IH by exact Hl.
    destruct l as [|y l]; [reflexivity|]. cbn. inversion Hx; subst. rewrite H1. reflexivity.
  Qed.
End Sort.

Lemma key_total : forall a b, key_le a b = true \/ key_le b a = true.
Proof.
  intros a b. unfold key_le. rewrite !orb_true_iff, !andb_true_iff, !Nat.ltb_lt, !Nat.eqb_eq, !Nat.leb_le. lia.
Qed.
Lemma key_trans : forall a b c, key_le a b = true -> key_le b c = true -> key_le a c = true.
Proof.
  intros a b c. unfold key_le. rewrite !orb_true_iff, !andb_true_iff, !Nat.ltb_lt, !Nat.eqb_eq, !Nat.leb_le. lia.
Qed.

Lemma indel_eqb_eq : forall a b, indel_eqb a b = true <-> a = b.
Proof.
  intros [s e i] [s' e' i']. unfold indel_eqb. cbn.
  rewrite !andb_true_iff, !Nat.eqb_eq, text_eqb_eq. split; [intros [[-> ->] ->]; reflexivity|].
  intro H. injection H as -> -> ->. auto.
Qed.

(* ---------- scripts ---------- *)
(* [t] starts at [off]; the edits cut it into kept and removed pieces *)
Inductive script : nat -> text -> list indel -> text -> Prop :=
| ScEnd : forall off t, script off t [] t
| ScEdit : forall off k d rest i s e es rest',
    s = off + blen k -> e = s + blen d -> script e rest es rest' ->
    script off (k ++ d ++ rest) ({| i_start := s; i_end := e; i_insert := i |} :: es) (k ++ i ++ rest').

Definition from (off : nat) (es : list indel) : Prop := Forall (fun e => off <= i_start e) es.
Definition ok (e : indel) : Prop := i_start e <= i_end e.

Lemma script_from : forall off t es t', script off t es t' -> from off es /\ Forall ok es.
Proof.
  intros off t es t' H. induction H as [|off k d rest i s e es rest' Hs He H IH].
  - split; constructor.
  - destruct IH as [IH1 IH2]. split; constructor; cbn; [lia| |unfold ok; cbn; lia|exact IH2].
    eapply Forall_impl; [|exact IH1]. cbn. intros. lia.
Qed.

Lemma in_order_from : forall a r, in_order (a :: r) -> Forall ok (a :: r) -> from (i_end a) r.
Proof.
  intros a r. revert a. induction r as [|b r IH]; intros a H Hk; [constructor|].
  inversion H as [| |? ? ? H1 H2]; subst. inversion Hk as [|? ? Ha Hk2]; subst. constructor; [exact H1|].
  specialize (IH b H2 Hk2). inversion Hk2 as [|? ? Hb _]; subst. unfold ok in Hb.
  eapply Forall_impl; [|exact IH]. cbn. intros. lia.
Qed.

Lemma in_order_tail : forall a r, in_order (a :: r) -> in_order r.
Proof. intros a r H. inversion H; subst; [constructor|assumption]. Qed.

Lemma script_in_order : forall off t es t', script off t es t' -> in_order es.
Proof.
  intros off t es t' H. induction H as [|off k d rest i s e es rest' Hs He H IH]; [constructor|].
  destruct es as [|b es]; [constructor|]. constructor; [|exact IH].
  destruct (script_from _ _ _ _ H) as [F _]. inversion F; subst. assumption.
Qed.

Lemma script_exists : forall es p t, in_order es -> from (blen p) es -> Forall (in_bounds (p ++ t)) es ->
  exists t', script (blen p) t es t'.
Proof.
  induction es as [|a es IH]; intros p t Ho Hf Hb; [exists t; constructor|].
  inversion Hf as [|? ? Hf1 Hf2]; subst. inversion Hb as [|? ? Hb1 Hb2]; subst.
  destruct Hb1 as [Hk [[x [y [E1 L1]]] [z [w [E2 L2]]]]].
  assert (exists k, x = p ++ k /\ t = k ++ y) as [k [-> ->]].
  { destruct (app_split_blen _ _ _ _ E1 ltac:(lia)) as [k [-> Hk2]]. exists k. auto. }
  assert (exists d, z = (p ++ k) ++ d /\ y = d ++ w) as [d [-> ->]].
  { rewrite app_assoc in E2. destruct (app_split_blen _ _ _ _ E2 ltac:(lia)) as [d [-> Hd]]. exists d. auto. }
  assert (Forall ok (a :: es)) as Hok.
  { constructor; [exact Hk|]. eapply Forall_impl; [|exact Hb2]. intros e He. apply He. }
  destruct (IH ((p ++ k) ++ d) w) as [t' Ht].
  - exact (in_order_tail _ _ Ho).
  - rewrite L2. apply in_order_from; assumption.
  - rewrite <- !app_assoc. exact Hb2.
  - exists (k ++ i_insert a ++ t'). destruct a as [s e i]. cbn in *. apply ScEdit.
    + rewrite <- L1, blen_app. reflexivity.
    + rewrite <- L2, <- L1, !blen_app. lia.
    + rewrite <- L2. exact Ht.
Qed.

Lemma script_bounds : forall off t es t', script off t es t' -> forall p, blen p = off ->
  Forall (in_bounds (p ++ t)) es.
Proof.
  intros off t es t' H. induction H as [|off k d rest i s e es rest' Hs He H IH]; intros p Hp; constructor.
  - split; [cbn; lia|]. cbn. split.
    + exists (p ++ k), (d ++ rest). rewrite <- app_assoc, blen_app. split; [reflexivity|lia].
    + exists (p ++ k ++ d), rest. rewrite <- !app_assoc, !blen_app. split; [reflexivity|lia].
  - specialize (IH (p ++ k ++ d)). rewrite <- !app_assoc in IH. apply IH. rewrite !blen_app. lia.
Qed.

(* ---------- the specification on scripts ---------- *)
Lemma filter_none : forall (A : Type) (f : A -> bool) l, Forall (fun x => f x = false) l -> filter f l = [].
Proof. intros A f l H. induction H as [|x l H _ IH]; cbn; [reflexivity|]. rewrite H. exact IH. Qed.

Lemma existsb_none : forall (A : Type) (f : A -> bool) l, Forall (fun x => f x = false) l -> existsb f l = false.
Proof. intros A f l H. induction H as [|x l H _ IH]; cbn; [reflexivity|]. rewrite H. exact IH. Qed.

Lemma placed_none : forall es off, Forall (fun e => i_start e <> off) es -> placed_at es off = [].
Proof.
  intros es off H. unfold placed_at. rewrite !filter_none; [reflexivity| |];
    (eapply Forall_impl; [|exact H]; cbn; intros e He; apply Nat.eqb_neq in He; rewrite He; reflexivity).
Qed.

Lemma removed_none : forall es off, from (S off) es -> removed_at es off = false.
Proof.
  intros es off H. apply existsb_none. eapply Forall_impl; [|exact H]. cbn. intros e He.
  destruct (Nat.leb_spec (i_start e) off); [lia|reflexivity].
Qed.

Lemma from_le : forall a b es, a <= b -> from b es -> from a es.
Proof. intros a b es H. apply Forall_impl. cbn. intros. lia. Qed.

Lemma replaced_unfold : forall es off c r,
  replaced es off (c :: r) = placed_at es off ++ (if removed_at es off then [] else [c]) ++ replaced es (off + utf8_len c) r.
Proof. reflexivity. Qed.

Lemma replaced_keep : forall es k off r, from (off + blen k) es ->
  replaced es off (k ++ r) = k ++ replaced es (off + blen k) r.
Proof.
  intros es. induction k as [|c k IH]; intros off r H.
  - cbn. rewrite Nat.add_0_r. reflexivity.
  - cbn [blen app] in *. pose proof (utf8_len_pos c). rewrite replaced_unfold, placed_none, removed_none.
    + cbn [app]. f_equal. rewrite IH; [|eapply from_le; [|exact H]; lia]. f_equal. f_equal. lia.
    + eapply from_le; [|exact H]. lia.
    + eapply Forall_impl; [|exact H]. cbn. intros. lia.
Qed.

Lemma placed_drop : forall e es off, i_start e <> off -> placed_at (e :: es) off = placed_at es off.
Proof.
  intros e es off H. unfold placed_at. apply Nat.eqb_neq in H. cbn [filter]. rewrite H. reflexivity.
Qed.

Lemma replaced_drop : forall e es t off, i_start e < off -> i_end e <= off ->
  replaced (e :: es) off t = replaced es off t.
Proof.
  intros e es. induction t as [|c t IH]; intros off H1 H2; cbn [replaced].
  - rewrite placed_drop by lia. reflexivity.
  - rewrite placed_drop by lia. rewrite IH by lia. unfold removed_at. cbn [existsb].
    replace (off <? i_end e) with false by (symmetry; apply Nat.ltb_ge; lia). rewrite andb_false_r. reflexivity.
Qed.

(* inside the removed part *)
Lemma replaced_inside : forall e es d off r, i_start e < off -> off + blen d = i_end e -> from (i_end e) es ->
  replaced (e :: es) off (d ++ r) = replaced es (i_end e) r.
Proof.
  intros e es. induction d as [|c d IH]; intros off r H1 H2 H3.
  - cbn in *. rewrite replaced_drop by lia. f_equal. lia.
  - cbn [blen app] in *. pose proof (utf8_len_pos c). rewrite replaced_unfold, placed_drop by lia.
    rewrite placed_none by (eapply Forall_impl; [|exact H3]; cbn; intros; lia).
    unfold removed_at. cbn [existsb].
    replace (i_start e <=? off) with true by (symmetry; apply Nat.leb_le; lia).
    replace (off <? i_end e) with true by (symmetry; apply Nat.ltb_lt; lia). cbn [andb orb app].
    apply IH; [lia|lia|exact H3].
Qed.

Lemma replaced_insertion : forall s i es t, from s es ->
  replaced ({| i_start := s; i_end := s; i_insert := i |} :: es) s t = i ++ replaced es s t.
Proof.
  intros s i es t H.
  assert (placed_at ({| i_start := s; i_end := s; i_insert := i |} :: es) s = i ++ placed_at es s) as Hp.
  { unfold placed_at. cbn [filter i_start i_end]. rewrite !Nat.eqb_refl, Nat.ltb_irrefl. cbn [andb flat_map i_insert]. rewrite app_assoc. reflexivity. }
  destruct t as [|c t]; cbn [replaced]; rewrite Hp, <- app_assoc; [reflexivity|].
  pose proof (utf8_len_pos c). rewrite replaced_drop by (cbn; lia). unfold removed_at. cbn [existsb i_start i_end].
  rewrite Nat.ltb_irrefl, andb_false_r. reflexivity.
Qed.

Lemma replaced_script : forall off t es t', script off t es t' -> replaced es off t = t'.
Proof.
  intros off t es t' H. induction H as [off t|off k d rest i s e es rest' Hs He H IH].
  - rewrite <- (app_nil_r t). rewrite replaced_keep by constructor. reflexivity.
  - destruct (script_from _ _ _ _ H) as [F _].
    rewrite replaced_keep by (constructor; [cbn; lia|eapply from_le; [|exact F]; lia]).
    rewrite <- Hs. f_equal. destruct d as [|c d].
    + cbn in He. rewrite Nat.add_0_r in He. subst e. cbn [app]. rewrite replaced_insertion by exact F. rewrite IH. reflexivity.
    + cbn [blen] in He. pose proof (utf8_len_pos c). cbn [app].
      rewrite replaced_unfold.
      assert (placed_at ({| i_start := s; i_end := e; i_insert := i |} :: es) s = i) as ->.
      { change ({| i_start := s; i_end := e; i_insert := i |} :: es) with ([{| i_start := s; i_end := e; i_insert := i |}] ++ es).
        unfold placed_at. rewrite !filter_app, !flat_map_app.
        rewrite (filter_none _ _ es), (filter_none _ _ es).
        - cbn [filter i_start i_end]. rewrite Nat.eqb_refl. replace (e =? s) with false by (symmetry; apply Nat.eqb_neq; lia).
          replace (s <? e) with true by (symmetry; apply Nat.ltb_lt; lia). cbn. rewrite !app_nil_r. reflexivity.
        - eapply Forall_impl; [|exact F]. cbn. intros x Hx. replace (i_start x =? s) with false by (symmetry; apply Nat.eqb_neq; lia). reflexivity.
        - eapply Forall_impl; [|exact F]. cbn. intros x Hx. replace (i_start x =? s) with false by (symmetry; apply Nat.eqb_neq; lia). reflexivity. }
      f_equal. unfold removed_at. cbn [existsb i_start i_end].
      rewrite Nat.leb_refl. replace (s <? e) with true by (symmetry; apply Nat.ltb_lt; lia). cbn [andb orb app].
      rewrite replaced_inside; cbn [i_start i_end]; [exact IH|lia|lia|exact F].
Qed.

(* ---------- application ---------- *)
Lemma back_to_front_script : forall off t es t', script off t es t' -> forall p, blen p = off ->
  apply_back_to_front es (p ++ t) = Some (p ++ t').
Proof.
  intros off t es t' H. induction H as [|off k d rest i s e es rest' Hs He H IH]; intros p Hp; [reflexivity|].
  cbn [apply_back_to_front]. specialize (IH (p ++ k ++ d)). rewrite !blen_app in IH. rewrite <- !app_assoc in IH.
  rewrite IH by lia. unfold indel_apply. cbn [i_start i_end i_insert].
  replace (p ++ k ++ d ++ rest') with ((p ++ k) ++ d ++ rest') by (rewrite <- app_assoc; reflexivity).
  replace s with (blen (p ++ k)) by (rewrite blen_app; lia).
  replace e with (blen ((p ++ k) ++ d)) by (rewrite !blen_app; lia).
  rewrite replace_range_at, <- app_assoc. reflexivity.
Qed.

Lemma total_len_script : forall off t es t', script off t es t' -> forall n, blen t <= n ->
  total_len n es = Some (n - blen t + blen t').
Proof.
  intros off t es t' H. induction H as [|off k d rest i s e es rest' Hs He H IH]; intros n Hn; cbn [total_len].
  - f_equal. lia.
  - cbn [i_insert i_start i_end]. rewrite !blen_app in *. replace (e - s) with (blen d) by lia.
    destruct (Nat.ltb_spec (n + blen i) (blen d)); [lia|]. rewrite IH by lia. f_equal. lia.
Qed.

Lemma edit_apply_script : forall t es t', script 0 t es t' -> edit_apply es t = Some t'.
Proof.
  intros t es t' H. pose proof (back_to_front_script _ _ _ _ H [] eq_refl) as H1. cbn [app] in H1.
  pose proof (total_len_script _ _ _ _ H (blen t) (le_n _)) as H2.
  unfold edit_apply. destruct es as [|a [|b es]].
  - exact H1.
  - cbn in H1. exact H1.
  - rewrite H2, H1. replace (blen t - blen t + blen t') with (blen t') by lia. rewrite Nat.eqb_refl. reflexivity.
Qed.

Lemma apply_in_order : forall t es, in_order es -> Forall (in_bounds t) es ->
  edit_apply es t = Some (replaced es 0 t).
Proof.
  intros t es Ho Hb. destruct (script_exists es [] t Ho) as [t' H]; [|exact Hb|].
  - apply Forall_forall. intros. cbn. lia.
  - cbn [blen] in H. rewrite (replaced_script _ _ _ _ H). apply edit_apply_script. exact H.
Qed.

(* ---------- builder ---------- *)
Definition apart_or_same (a b : indel) : Prop := apart a b \/ a = b.

Notation pairs := (@ForallOrdPairs indel).

Lemma pairs_perm : forall (R : indel -> indel -> Prop), (forall a b, R a b -> R b a) -> forall l l', Permutation l l' -> pairs R l -> pairs R l'.
Proof.
  intros R Hs l l' H. induction H as [|x l l' H IH|x y l|l l' l'' H1 IH1 H2 IH2]; intro Hp.
  - constructor.
  - inversion Hp; subst. constructor; [|auto]. eapply Permutation_Forall; [exact H|assumption].
  - inversion Hp as [|? ? H1 H2]; subst. inversion H1 as [|? ? Hxy H1']; subst. inversion H2 as [|? ? H3 H4]; subst.
    constructor; [constructor; [apply Hs; exact Hxy|assumption]|]. constructor; assumption.
  - auto.
Qed.

Lemma pairs_app_l : forall (R : indel -> indel -> Prop) a b, pairs R (a ++ b) -> pairs R a.
Proof.
  intros R. induction a as [|x a IH]; intros b H; [constructor|]. inversion H as [|? ? H1 H2]; subst.
  apply Forall_app in H1. constructor; [apply H1|eapply IH; exact H2].
Qed.

Lemma pairs_impl : forall (R S : indel -> indel -> Prop), (forall a b, R a b -> S a b) -> forall l, pairs R l -> pairs S l.
Proof. intros R S H l Hl. induction Hl; constructor; [eapply Forall_impl; [|eassumption]; auto|assumption]. Qed.

Lemma apart_same_sym : forall a b, apart_or_same a b -> apart_or_same b a.
Proof. unfold apart_or_same, apart. intros a b [[H|H]| ->]; auto. Qed.

Lemma sorted_key_starts : forall a l, lower key_le a l -> from (i_start a) l.
Proof.
  intros a l H. eapply Forall_impl; [|exact H]. intros b Hb. cbn in Hb. unfold key_le in Hb.
  rewrite orb_true_iff, andb_true_iff, Nat.ltb_lt, Nat.eqb_eq in Hb. lia.
Qed.

Lemma check_pairs : forall l, sorted key_le l -> Forall ok l -> check_disjoint l = true -> pairs apart_or_same l.
Proof.
  intros l. induction l as [|a l IH]; intros Hs Hk Hc; [constructor|]. cbn in Hs. destruct Hs as [Hlow Hs].
  inversion Hk as [|? ? Ha Hk2]; subst. destruct l as [|b l]; [repeat constructor|].
  assert (check_disjoint (b :: l) = true /\ (i_end a <= i_start b \/ a = b)) as [Hc2 Hab].
  { cbn [check_disjoint] in Hc. apply andb_true_iff in Hc. destruct Hc as [H1 H2]. split; [exact H2|].
    apply orb_true_iff in H1. rewrite Nat.leb_le, indel_eqb_eq in H1. exact H1. }
  specialize (IH Hs Hk2 Hc2). constructor; [|exact IH]. inversion IH as [|? ? Hb _]; subst.
  destruct Hab as [Hab| ->].
  - constructor; [left; left; exact Hab|]. cbn in Hs. destruct Hs as [Hbl _]. apply sorted_key_starts in Hbl.
    eapply Forall_impl; [|exact Hbl]. intros x Hx. left. left. cbn in Hx. lia.
  - constructor; [right; reflexivity|exact Hb].
Qed.

Lemma pairs_check : forall l, sorted key_le l -> Forall ok l -> pairs apart_or_same l -> check_disjoint l = true.
Proof.
  intros l. induction l as [|a l IH]; intros Hs Hk Hp; [reflexivity|]. cbn in Hs. destruct Hs as [Hlow Hs].
  inversion Hk as [|? ? Ha Hk2]; subst. inversion Hp as [|? ? Hp1 Hp2]; subst. specialize (IH Hs Hk2 Hp2).
  destruct l as [|b l]; [reflexivity|]. cbn [check_disjoint]. apply andb_true_iff. split; [|exact IH].
  apply orb_true_iff. rewrite Nat.leb_le, indel_eqb_eq. inversion Hp1 as [|? ? Hab _]; subst.
  destruct Hab as [[H|H]|H]; [left; exact H| |right; exact H].
  inversion Hlow as [|? ? Hl _]; subst. unfold key_le in Hl. rewrite orb_true_iff, andb_true_iff, Nat.ltb_lt, Nat.eqb_eq, Nat.leb_le in Hl.
  inversion Hk2 as [|? ? Hb _]; subst. unfold ok in *. left. lia.
Qed.

Lemma assert_iff : forall l, Forall ok l ->
  assert_disjoint_or_equal l <> None <-> pairs apart_or_same l.
Proof.
  intros l Hk. unfold assert_disjoint_or_equal.
  assert (Forall ok (sort_by key_le l)) as Hk2 by (eapply Permutation_Forall; [apply sort_perm|exact Hk]).
  pose proof (sort_sorted key_le key_total key_trans l) as Hs. split.
  - destruct (check_disjoint (sort_by key_le l)) eqn:E; [|congruence]. intros _.
    eapply pairs_perm; [exact apart_same_sym|exact (Permutation_sym (sort_perm key_le l))|]. apply check_pairs; assumption.
  - intro Hp. rewrite pairs_check; [discriminate|assumption|assumption|].
    eapply pairs_perm; [exact apart_same_sym|exact (sort_perm key_le l)|exact Hp].
Qed.

(* [b] is a rearrangement of [ds] that keeps the order inside each key *)
Definition rearranged (ds b : list indel) : Prop :=
  Permutation ds b /\ forall p, class key_le p -> filter p b = filter p ds.

Lemma rearranged_refl : forall l, rearranged l l.
Proof. intro l. split; auto. Qed.
Lemma rearranged_sort : forall a b, rearranged a b -> rearranged a (sort_by key_le b).
Proof.
  intros a b [H1 H2]. split; [rewrite H1; apply sort_perm|]. intros p Hp. rewrite sort_filter by exact Hp. apply H2. exact Hp.
Qed.
Lemma rearranged_push : forall a b d, rearranged a b -> rearranged (a ++ [d]) (b ++ [d]).
Proof.
  intros a b d [H1 H2]. split; [apply Permutation_app_tail; exact H1|]. intros p Hp. rewrite !filter_app, H2 by exact Hp. reflexivity.
Qed.

Lemma feed_ok : forall ds a b, rearranged a b -> Forall ok (a ++ ds) ->
  (pairs apart_or_same (a ++ ds) -> exists b', builder_feed b ds = Some b' /\ rearranged (a ++ ds) b') /\
  (forall b', builder_feed b ds = Some b' -> rearranged (a ++ ds) b').
Proof.
  induction ds as [|d ds IH]; intros a b Hr Hk.
  - rewrite app_nil_r in *. cbn. split; [intros _; exists b; auto|]. intros b' H. injection H as <-. exact Hr.
  - replace (a ++ d :: ds) with ((a ++ [d]) ++ ds) in * by (rewrite <- app_assoc; reflexivity).
    pose proof (rearranged_push _ _ d Hr) as Hr2. cbn [builder_feed]. unfold builder_indel.
    destruct (length (b ++ [d]) <=? 16).
    + unfold assert_disjoint_or_equal. destruct (check_disjoint (sort_by key_le (b ++ [d]))) eqn:E.
      * apply IH; [apply rearranged_sort; exact Hr2|exact Hk].
      * split; [|discriminate]. intro Hp. exfalso.
        assert (assert_disjoint_or_equal (b ++ [d]) <> None) as N.
        { apply assert_iff.
          - apply Forall_app in Hk. eapply Permutation_Forall; [apply Hr2|apply Hk].
          - eapply pairs_perm; [exact apart_same_sym|apply Hr2|]. eapply pairs_app_l. exact Hp. }
        apply N. unfold assert_disjoint_or_equal. rewrite E. reflexivity.
    + apply IH; [exact Hr2|exact Hk].
Qed.

Lemma build_succeeds_iff : forall ds, Forall ok ds -> (build ds <> None <-> pairs apart_or_same ds).
Proof.
  intros ds Hk. destruct (feed_ok ds [] [] (rearranged_refl []) Hk) as [F1 F2]. cbn [app] in *. unfold build, builder_finish. split.
  - destruct (builder_feed [] ds) as [b|] eqn:E; [|congruence]. destruct (F2 b eq_refl) as [Hp _].
    destruct (assert_disjoint_or_equal b) eqn:Ea; [|congruence]. intros _.
    eapply pairs_perm; [exact apart_same_sym|apply Permutation_sym; exact Hp|].
    apply assert_iff; [eapply Permutation_Forall; eassumption|congruence].
  - intro Hp. destruct (F1 Hp) as [b [-> [Hb _]]].
    assert (assert_disjoint_or_equal b <> None) as N.
    { apply assert_iff; [eapply Permutation_Forall; eassumption|]. eapply pairs_perm; [exact apart_same_sym|exact Hb|exact Hp]. }
    destruct (assert_disjoint_or_equal b); [discriminate|contradiction].
Qed.

Lemma pairs_in_order : forall l, sorted key_le l -> Forall ok l -> pairs apart l -> in_order l.
Proof.
  intros l. induction l as [|a l IH]; intros Hs Hk Hp; [constructor|]. cbn in Hs. destruct Hs as [Hlow Hs].
  inversion Hk as [|? ? Ha Hk2]; subst. inversion Hp as [|? ? Hp1 Hp2]; subst. specialize (IH Hs Hk2 Hp2).
  destruct l as [|b l]; [constructor|]. constructor; [|exact IH]. inversion Hp1 as [|? ? Hab _]; subst.
  destruct Hab as [H|H]; [exact H|].
  inversion Hlow as [|? ? Hl _]; subst. unfold key_le in Hl. rewrite orb_true_iff, andb_true_iff, Nat.ltb_lt, Nat.eqb_eq, Nat.leb_le in Hl.
  inversion Hk2 as [|? ? Hb _]; subst. unfold ok in *. lia.
Qed.

(* the specification does not depend on the order of the list, except among insertions at one place *)
Lemma class_insertions : forall off, class key_le (fun e => (i_start e =? off) && (i_end e =? off)).
Proof.
  intros off x y Hx Hy. apply andb_true_iff in Hx. apply andb_true_iff in Hy. rewrite !Nat.eqb_eq in *.
  unfold key_le. rewrite orb_true_iff, andb_true_iff, Nat.ltb_lt, Nat.eqb_eq, Nat.leb_le. lia.
Qed.

Lemma existsb_perm : forall (A : Type) (f : A -> bool) l l', Permutation l l' -> existsb f l = existsb f l'.
Proof.
  intros A f l l' H. induction H as [|x l l' H IH|x y l|l l' l'' _ IH1 _ IH2]; cbn; [reflexivity|rewrite IH; reflexivity| |congruence].
  destruct (f x), (f y); reflexivity.
Qed.

Lemma filter_perm : forall (A : Type) (f : A -> bool) l l', Permutation l l' -> Permutation (filter f l) (filter f l').
Proof.
  intros A f l l' H. induction H as [|x l l' H IH|x y l|l l' l'' _ IH1 _ IH2]; cbn.
  - constructor.
  - destruct (f x); [apply perm_skip|]; exact IH.
  - destruct (f x), (f y); try reflexivity. apply perm_swap.
  - rewrite IH1. exact IH2.
Qed.

Lemma filter_one : forall l off, pairs apart l ->
  length (filter (fun e => (i_start e =? off) && (off <? i_end e)) l) <= 1.
Proof.
  intros l off H. induction H as [|a l Ha Hl IH]; cbn [filter length]; [lia|].
  destruct ((i_start a =? off) && (off <? i_end a)) eqn:E; [|exact IH]. cbn [length].
  rewrite filter_none; [cbn [length]; lia|]. eapply Forall_impl; [|exact Ha]. intros b [Hb|Hb];
    apply andb_true_iff in E; rewrite Nat.eqb_eq, Nat.ltb_lt in E; apply andb_false_iff; rewrite Nat.eqb_neq, Nat.ltb_ge; lia.
Qed.

Lemma perm_short : forall (A : Type) (l l' : list A), Permutation l l' -> length l <= 1 -> l = l'.
Proof.
  intros A l l' H Hl. destruct l as [|x [|y l]].
  - apply Permutation_nil in H. congruence.
  - apply Permutation_length_1_inv in H. congruence.
  - cbn in Hl. lia.
Qed.

Lemma replaced_rearranged : forall ds b, rearranged ds b -> pairs apart ds -> forall t off,
  replaced b off t = replaced ds off t.
Proof.
  intros ds b [Hp Hf] Ha.
  assert (forall off, placed_at b off = placed_at ds off) as H1.
  { intro off. unfold placed_at. rewrite Hf by apply class_insertions. f_equal. f_equal. symmetry.
    apply perm_short; [apply filter_perm; exact Hp|apply filter_one; exact Ha]. }
  assert (forall off, removed_at b off = removed_at ds off) as H2.
  { intro off. unfold removed_at. symmetry. apply existsb_perm. exact Hp. }
  induction t as [|c t IH]; intro off; cbn [replaced]; rewrite H1; [reflexivity|]. rewrite H2, IH. reflexivity.
Qed.

(* coalescing *)
Lemma script_merge : forall off t a b r t', script off t (a :: b :: r) t' -> i_end a = i_start b ->
  script off t ({| i_start := i_start a; i_end := i_end b; i_insert := i_insert a ++ i_insert b |} :: r) t'.
Proof.
  intros off t a b r t' H E. inversion H as [|? k d rest i s e es rest' Hs He H2]; subst.
  inversion H2 as [|? k2 d2 rest2 i2 s2 e2 es2 rest2' Hs2 He2 H3]; subst. cbn [i_start i_end i_insert] in *.
  assert (k2 = []) as -> by (apply blen_nil_inv; lia). cbn [app blen] in *.
  replace (k ++ d ++ d2 ++ rest2) with (k ++ (d ++ d2) ++ rest2) by (rewrite <- app_assoc; reflexivity).
  replace (k ++ i ++ i2 ++ rest2') with (k ++ (i ++ i2) ++ rest2') by (rewrite <- app_assoc; reflexivity).
  apply ScEdit; [reflexivity|rewrite blen_app; lia|exact H3].
Qed.

Lemma script_coalesce : forall l a off t t', script off t (a :: l) t' -> script off t (coalesce_from a l) t'.
Proof.
  induction l as [|b l IH]; intros a off t t' H; cbn [coalesce_from]; [exact H|].
  destruct (Nat.eqb_spec (i_end a) (i_start b)) as [E|E].
  - apply IH. apply script_merge; assumption.
  - inversion H as [|? k d rest i s e es rest' Hs He H2]; subst. apply ScEdit; [reflexivity|reflexivity|]. apply IH. exact H2.
Qed.

Lemma coalesce_head : forall l a, exists r, coalesce_from a l = r /\ exists b r', r = b :: r' /\ i_start b = i_start a.
Proof.
  induction l as [|b l IH]; intro a; cbn [coalesce_from]; [eauto 6|].
  destruct (i_end a =? i_start b); [|eauto 6]. destruct (IH {| i_start := i_start a; i_end := i_end b; i_insert := i_insert a ++ i_insert b |}) as [r [-> [c [r' [-> Hc]]]]].
  eauto 6.
Qed.

Lemma coalesce_separated : forall l a, in_order (a :: l) -> Forall ok (a :: l) -> separated (coalesce_from a l).
Proof.
  induction l as [|b l IH]; intros a Ho Hk; cbn [coalesce_from]; [constructor|].
  inversion Ho as [| |? ? ? H1 H2]; subst. inversion Hk as [|? ? Ha Hk2]; subst. inversion Hk2 as [|? ? Hb Hk3]; subst.
  destruct (Nat.eqb_spec (i_end a) (i_start b)) as [E|E].
  - apply IH.
    + destruct l as [|c l]; [constructor|]. inversion H2; subst. constructor; assumption.
    + constructor; [unfold ok in *; cbn; lia|exact Hk3].
  - specialize (IH b H2 Hk2). destruct (coalesce_head l b) as [r [Er [c [r' [-> Hc]]]]]. rewrite Er in *. constructor; [lia|exact IH].
Qed.

Lemma bounds_ok : forall t l, Forall (in_bounds t) l -> Forall ok l.
Proof. intros t l. apply Forall_impl. intros e H. apply H. Qed.

Lemma build_correct : forall t ds, pairs apart ds -> Forall (in_bounds t) ds ->
  exists es, build ds = Some es /\ separated es /\ Forall (in_bounds t) es /\
    replaced es 0 t = replaced ds 0 t /\ edit_apply es t = Some (replaced ds 0 t).
Proof.
  intros t ds Hp Hb. pose proof (bounds_ok _ _ Hb) as Hk.
  destruct (feed_ok ds [] [] (rearranged_refl []) Hk) as [F _]. cbn [app] in F.
  destruct F as [b [Eb Hr]]; [eapply pairs_impl; [|exact Hp]; intros; left; assumption|].
  assert (Forall ok b) as Hkb by (eapply Permutation_Forall; [apply Hr|exact Hk]).
  pose proof (rearranged_sort _ _ Hr) as Hr2.
  assert (check_disjoint (sort_by key_le b) = true) as Hc.
  { apply pairs_check.
    - apply sort_sorted; [exact key_total|exact key_trans].
    - eapply Permutation_Forall; [apply sort_perm|exact Hkb].
    - eapply pairs_perm; [exact apart_same_sym|apply Hr2|]. eapply pairs_impl; [|exact Hp]. intros; left; assumption. }
  assert (in_order (sort_by key_le b)) as Ho.
  { apply pairs_in_order.
    - apply sort_sorted; [exact key_total|exact key_trans].
    - eapply Permutation_Forall; [apply sort_perm|exact Hkb].
    - eapply pairs_perm; [|apply Hr2|exact Hp]. unfold apart. intros x y [H|H]; auto. }
  assert (Forall (in_bounds t) (sort_by key_le b)) as Hbb by (eapply Permutation_Forall; [apply Hr2|exact Hb]).
  destruct (script_exists (sort_by key_le b) [] t Ho) as [t' Hs]; [apply Forall_forall; intros; cbn; lia|exact Hbb|].
  exists (coalesce_indels (sort_by key_le b)). unfold build, builder_finish, assert_disjoint_or_equal. rewrite Eb, Hc.
  split; [reflexivity|]. cbn [blen] in Hs.
  assert (script 0 t (coalesce_indels (sort_by key_le b)) t') as Hs2.
  { unfold coalesce_indels. destruct (sort_by key_le b) as [|a l]; [exact Hs|]. apply script_coalesce. exact Hs. }
  assert (t' = replaced ds 0 t) as Ht'.
  { rewrite <- (replaced_script _ _ _ _ Hs). apply replaced_rearranged; assumption. }
  split.
  { unfold coalesce_indels. destruct (sort_by key_le b) as [|a l]; [constructor|]. apply coalesce_separated; [exact Ho|eapply bounds_ok; exact Hbb]. }
  split; [exact (script_bounds _ _ _ _ Hs2 [] eq_refl)|].
  split; [rewrite (replaced_script _ _ _ _ Hs2); exact Ht'|].
  rewrite (edit_apply_script _ _ _ Hs2), Ht'. reflexivity.
Qed.

(* ---------- diff ---------- *)
Lemma script_shift : forall k off t es t', script (off + blen k) t es t' -> script off (k ++ t) es (k ++ t').
Proof.
  intros k off t es t' H. inversion H as [|? k2 d rest i s e es2 rest' Hs He H2]; subst; [constructor|].
  replace (k ++ k2 ++ d ++ rest) with ((k ++ k2) ++ d ++ rest) by (rewrite <- app_assoc; reflexivity).
  replace (k ++ k2 ++ i ++ rest') with ((k ++ k2) ++ i ++ rest') by (rewrite <- app_assoc; reflexivity).
  apply ScEdit; [rewrite blen_app; lia|lia|exact H2].
Qed.

Lemma diff_script_len : forall n cs pos, length cs <= n -> script pos (old_text cs) (diff_indels pos cs) (new_text cs).
Proof.
  induction n as [|n IH]; intros cs pos Hn; (destruct cs as [|c cs]; [constructor|]); cbn in Hn; [lia|].
  destruct c as [x|x|x].
  - cbn [diff_indels]. change (old_text (Equal x :: cs)) with (x ++ old_text cs). change (new_text (Equal x :: cs)) with (x ++ new_text cs).
    apply script_shift. apply IH. lia.
  - assert (forall i cs', length cs' <= n -> script pos (x ++ old_text cs')
       ({| i_start := pos; i_end := pos + blen x; i_insert := i |} :: diff_indels (pos + blen x) cs') (i ++ new_text cs')) as D.
    { intros i cs' Hl. apply (ScEdit pos [] x (old_text cs') i pos (pos + blen x)); [cbn; lia|reflexivity|apply IH; exact Hl]. }
    cbn [diff_indels]. change (old_text (Delete x :: cs)) with (x ++ old_text cs). change (new_text (Delete x :: cs)) with (new_text cs).
    destruct cs as [|[y|y|y] cs]; [apply (D [] []); cbn; lia|apply (D []); cbn in *; lia|apply (D []); cbn in *; lia|].
    change (old_text (Insert y :: cs)) with (old_text cs). change (new_text (Insert y :: cs)) with (y ++ new_text cs).
    apply D. cbn in *. lia.
  - cbn [diff_indels]. change (old_text (Insert x :: cs)) with (old_text cs). change (new_text (Insert x :: cs)) with (x ++ new_text cs).
    apply (ScEdit pos [] [] (old_text cs) x pos pos); [cbn; lia|cbn; lia|apply IH; lia].
Qed.

Lemma in_order_pairs : forall l, in_order l -> Forall ok l -> pairs apart l.
Proof.
  induction l as [|a l IH]; intros Ho Hk; [constructor|]. constructor.
  - eapply Forall_impl; [|apply in_order_from; eassumption]. intros b Hb. left. exact Hb.
  - inversion Hk; subst. apply IH; [eapply in_order_tail; exact Ho|assumption].
Qed.

Lemma diff_correct : forall cs, exists es, diff cs = Some es /\ separated es /\
  Forall (in_bounds (old_text cs)) es /\ edit_apply es (old_text cs) = Some (new_text cs) /\
  replaced es 0 (old_text cs) = new_text cs.
Proof.
  intro cs. pose proof (diff_script_len (length cs) cs 0 (le_n _)) as H.
  pose proof (script_bounds _ _ _ _ H [] eq_refl) as Hb. cbn [app] in Hb.
  destruct (build_correct (old_text cs) (diff_indels 0 cs)) as [es [E1 [E2 [E3 [E4 E5]]]]].
  - apply in_order_pairs; [eapply script_in_order; exact H|eapply bounds_ok; exact Hb].
  - exact Hb.
  - rewrite (replaced_script _ _ _ _ H) in *. exists es. auto.
Qed.

(* ---------- union ---------- *)
Fixpoint by_start (l : list indel) : Prop := match l with [] => True | a :: r => from (i_start a) r /\ by_start r end.
Definition before (a b : indel) : Prop := i_end a <= i_start b \/ a = b.

Lemma in_order_by_start : forall l, in_order l -> Forall ok l -> by_start l.
Proof.
  induction l as [|a l IH]; intros Ho Hk; cbn; [exact I|]. split.
  - pose proof (in_order_from _ _ Ho Hk) as F. inversion Hk as [|? ? Ha _]; subst. eapply from_le; [|exact F]. exact Ha.
  - inversion Hk; subst. apply IH; [eapply in_order_tail; exact Ho|assumption].
Qed.

Lemma check_before : forall l, by_start l -> Forall ok l -> (check_disjoint l = true <-> pairs before l).
Proof.
  induction l as [|a l IH]; intros Hs Hk; [split; [constructor|reflexivity]|]. cbn in Hs. destruct Hs as [Hf Hs].
  inversion Hk as [|? ? Ha Hk2]; subst. specialize (IH Hs Hk2).
  destruct l as [|b l]; [split; [repeat constructor|reflexivity]|].
  cbn [check_disjoint]. rewrite andb_true_iff, orb_true_iff, Nat.leb_le, indel_eqb_eq, IH. split.
  - intros [H1 H2]. constructor; [|exact H2]. inversion H2 as [|? ? Hb _]; subst. destruct H1 as [H1| ->].
    + constructor; [left; exact H1|]. cbn in Hs. eapply Forall_impl; [|apply Hs]. intros x Hx. left. cbn in Hx. lia.
    + constructor; [right; reflexivity|exact Hb].
  - intro H. inversion H as [|? ? H1 H2]; subst. split; [|exact H2]. inversion H1; subst. assumption.
Qed.

Lemma merge_nil_r : forall l, merge_starts l [] = l.
Proof. destruct l; reflexivity. Qed.
Lemma merge_cons : forall a l b r, merge_starts (a :: l) (b :: r) =
  if i_start a <=? i_start b then a :: merge_starts l (b :: r) else b :: merge_starts (a :: l) r.
Proof. reflexivity. Qed.

Lemma merge_perm : forall l r, Permutation (l ++ r) (merge_starts l r).
Proof.
  induction l as [|a l IHl]; [reflexivity|]. induction r as [|b r IHr]; [rewrite app_nil_r; reflexivity|].
  rewrite merge_cons. destruct (i_start a <=? i_start b).
  - cbn. apply perm_skip. apply IHl.
  - rewrite <- IHr. symmetry. apply Permutation_middle.
Qed.

Lemma merge_forall : forall P l r, Forall P l -> Forall P r -> Forall P (merge_starts l r).
Proof.
  intros P l r Hl Hr. eapply Permutation_Forall; [apply merge_perm|]. apply Forall_app. split; assumption.
Qed.

Lemma merge_by_start : forall l r, by_start l -> by_start r -> by_start (merge_starts l r).
Proof.
  induction l as [|a l IHl]; [auto|]. induction r as [|b r IHr]; [auto|]. intros Hl Hr.
  rewrite merge_cons. destruct (Nat.leb_spec (i_start a) (i_start b)); cbn in Hl, Hr.
  - split; [|apply IHl; cbn; tauto]. apply merge_forall; [apply Hl|]. constructor; [exact H|]. eapply from_le; [exact H|apply Hr].
  - split; [|apply IHr; [cbn; tauto|apply Hr]]. apply merge_forall; [|apply Hr]. constructor; [lia|]. eapply from_le; [|apply Hl]. lia.
Qed.

Definition union_ok (a b : indel) : Prop :=
  a = b \/ i_end a <= i_start b \/ (i_end b <= i_start a /\ i_start b < i_start a).

Lemma merge_pairs : forall l r, by_start l -> by_start r -> Forall ok l -> Forall ok r -> pairs before l -> pairs before r ->
  (pairs before (merge_starts l r) <-> forall a b, In a l -> In b r -> union_ok a b).
Proof.
  induction l as [|a l IHl].
  - intros r _ _ _ _ _ Hr. cbn. split; [contradiction|auto].
  - induction r as [|b r IHr].
    + intros _ _ _ _ Hl _. cbn [merge_starts]. split; [contradiction|auto].
    + intros Hl Hr Kl Kr Pl Pr. rewrite merge_cons. cbn [by_start] in Hl, Hr.
      inversion Kl as [|? ? Ka Kl2]; subst. inversion Kr as [|? ? Kb Kr2]; subst.
      inversion Pl as [|? ? Pa Pl2]; subst. inversion Pr as [|? ? Pb Pr2]; subst.
      destruct (Nat.leb_spec (i_start a) (i_start b)) as [Hab|Hab].
      * specialize (IHl (b :: r) (proj2 Hl) Hr Kl2 Kr Pl2 Pr). split.
        -- intros H x y Hx Hy. inversion H as [|? ? H1 H2]; subst. destruct Hx as [<-|Hx]; [|apply IHl; assumption].
           assert (In y (merge_starts l (b :: r))) as Hy' by (eapply Permutation_in; [apply merge_perm|]; apply in_or_app; auto).
           rewrite Forall_forall in H1. destruct (H1 y Hy') as [Q|Q]; [right; left; exact Q|left; exact Q].
        -- intro H. constructor; [|apply IHl; intros; apply H; [right; assumption|assumption]].
           apply merge_forall; [exact Pa|]. apply Forall_forall. intros y Hy. destruct (H a y (or_introl eq_refl) Hy) as [Q|[Q|[Q1 Q2]]]; [right; exact Q|left; exact Q|].
           exfalso. destruct Hy as [<-|Hy]; [lia|]. destruct Hr as [Hr _]. unfold from in Hr. rewrite Forall_forall in Hr. specialize (Hr y Hy). cbn in Hr. lia.
      * specialize (IHr Hl (proj2 Hr) Kl Kr2 Pl Pr2). split.
        -- intros H x y Hx Hy. inversion H as [|? ? H1 H2]; subst. destruct Hy as [<-|Hy]; [|apply IHr; assumption].
           assert (In x (merge_starts (a :: l) r)) as Hx' by (eapply Permutation_in; [apply merge_perm|]; apply in_or_app; auto).
           rewrite Forall_forall in H1. destruct (H1 x Hx') as [Q|Q]; [|left; symmetry; exact Q].
           right. right. split; [exact Q|]. destruct Hx as [<-|Hx]; [exact Hab|]. destruct Hl as [Hl _]. unfold from in Hl. rewrite Forall_forall in Hl. specialize (Hl x Hx). cbn in Hl. lia.
        -- intro H. constructor; [|apply IHr; intros; apply H; [assumption|right; assumption]].
           apply merge_forall; [|exact Pb]. apply Forall_forall. intros x Hx. destruct (H x b Hx (or_introl eq_refl)) as [Q|[Q|[Q1 Q2]]]; [right; symmetry; exact Q| |left; exact Q1].
           exfalso. assert (i_start a <= i_start x) as S by (destruct Hx as [<-|Hx]; [lia|]; destruct Hl as [Hl _]; unfold from in Hl; rewrite Forall_forall in Hl; apply Hl; exact Hx).
           assert (ok x) as Kx by (rewrite Forall_forall in Kl; apply Kl; exact Hx). unfold ok in Kx. lia.
Qed.

Lemma in_order_before : forall l, in_order l -> Forall ok l -> pairs before l.
Proof.
  induction l as [|a l IH]; intros Ho Hk; [constructor|]. constructor.
  - eapply Forall_impl; [|apply in_order_from; eassumption]. intros b Hb. left. exact Hb.
  - inversion Hk; subst. apply IH; [eapply in_order_tail; exact Ho|assumption].
Qed.

Lemma union_iff : forall l r, in_order l -> in_order r -> Forall ok l -> Forall ok r ->
  (edit_union l r <> None <-> forall a b, In a l -> In b r -> union_ok a b).
Proof.
  intros l r Ol Or Kl Kr. pose proof (in_order_by_start _ Ol Kl) as Sl. pose proof (in_order_by_start _ Or Kr) as Sr.
  rewrite <- merge_pairs by (try assumption; apply in_order_before; assumption).
  rewrite <- check_before by (try (apply merge_by_start; assumption); apply merge_forall; assumption).
  unfold edit_union. destruct (check_disjoint (merge_starts l r)); split; intro H; congruence.
Qed.

(* which edits of the second list are kept *)
Definition is_dup (l : list indel) (b : indel) : bool := existsb (indel_eqb b) l && negb (i_start b =? i_end b).
Definition fresh (l : list indel) (b : indel) : bool := negb (is_dup l b).

Definition collapses (a b : indel) : bool := indel_eqb a b && negb (i_start a =? i_end a).
Lemma dedup_from_cons : forall a b r, dedup_from a (b :: r) = if collapses a b then dedup_from a r else a :: dedup_from b r.
Proof. reflexivity. Qed.
Lemma collapses_true : forall a b, collapses a b = true <-> a = b /\ i_start a <> i_end a.
Proof. intros. unfold collapses. rewrite andb_true_iff, indel_eqb_eq, negb_true_iff, Nat.eqb_neq. tauto. Qed.
Lemma collapses_end : forall a b, i_end a <= i_start b -> ok a -> collapses a b = false.
Proof.
  intros a b H Hk. destruct (collapses a b) eqn:E; [|reflexivity]. apply collapses_true in E. destruct E as [-> E]. unfold ok in Hk. lia.
Qed.

Lemma dedup_in_order : forall l, in_order l -> Forall ok l -> dedup_indels l = l.
Proof.
  destruct l as [|a l]; [reflexivity|]. cbn [dedup_indels]. revert a. induction l as [|b l IH]; intros a Ho Hk; [reflexivity|].
  inversion Ho as [| |? ? ? H1 H2]; subst. inversion Hk as [|? ? Ha Hk2]; subst.
  rewrite dedup_from_cons, collapses_end by assumption. rewrite IH by assumption. reflexivity.
Qed.

Lemma fresh_nil : forall r, filter (fresh []) r = r.
Proof. induction r as [|b r IH]; cbn; [reflexivity|]. rewrite IH. reflexivity. Qed.

Lemma dedup_skip : forall a m, (match m with [] => True | x :: _ => collapses a x = false end) ->
  dedup_indels (a :: m) = a :: dedup_indels m.
Proof. intros a [|x m] H; [reflexivity|]. cbn [dedup_indels]. rewrite dedup_from_cons, H. reflexivity. Qed.

Lemma merge_all_ge : forall a l r, from (i_start a) r -> merge_starts (a :: l) r = a :: merge_starts l r.
Proof.
  intros a l [|b r] H; [rewrite !merge_nil_r; reflexivity|]. rewrite merge_cons. inversion H; subst.
  destruct (Nat.leb_spec (i_start a) (i_start b)); [reflexivity|lia].
Qed.

Lemma dedup_merge : forall l r, in_order l -> in_order r -> Forall ok l -> Forall ok r ->
  pairs before (merge_starts l r) -> dedup_indels (merge_starts l r) = merge_starts l (filter (fresh l) r).
Proof.
  induction l as [|a l IHl].
  - intros r _ Or _ Kr _. cbn [merge_starts]. rewrite fresh_nil. apply dedup_in_order; assumption.
  - induction r as [|b r IHr].
    + intros Ol _ Kl _ _. cbn [filter]. rewrite !merge_nil_r. apply dedup_in_order; assumption.
    + intros Ol Or Kl Kr P.
      pose proof (in_order_tail _ _ Ol) as Ol2. pose proof (in_order_tail _ _ Or) as Or2.
      pose proof (in_order_from _ _ Ol Kl) as Fl. pose proof (in_order_from _ _ Or Kr) as Fr.
      inversion Kl as [|? ? Ka Kl2]; subst. inversion Kr as [|? ? Kb Kr2]; subst.
      assert (from (i_start b) r) as Fr' by (eapply from_le; [|exact Fr]; exact Kb).
      rewrite merge_cons in P |- *. destruct (Nat.leb_spec (i_start a) (i_start b)) as [Hab|Hab].
      * inversion P as [|? ? P1 P2]; subst. destruct (collapses a b) eqn:Ec.
        -- apply collapses_true in Ec. destruct Ec as [<- Ene].
           assert (merge_starts l (a :: r) = a :: merge_starts l r) as Em.
           { destruct l as [|c l]; [reflexivity|]. rewrite merge_cons. inversion Fl as [|? ? Fc _]; subst. unfold ok in Ka.
             destruct (Nat.leb_spec (i_start c) (i_start a)); [lia|reflexivity]. }
           rewrite Em in *. cbn [dedup_indels]. rewrite dedup_from_cons.
           assert (collapses a a = true) as -> by (apply collapses_true; auto).
           change (dedup_from a (merge_starts l r)) with (dedup_indels (a :: merge_starts l r)).
           rewrite <- (merge_all_ge a l r Fr'). rewrite IHr; try assumption.
           ++ cbn [filter]. assert (fresh (a :: l) a = false) as ->; [|reflexivity].
              unfold fresh, is_dup. cbn [existsb]. assert (indel_eqb a a = true) as -> by (apply indel_eqb_eq; reflexivity).
              apply Nat.eqb_neq in Ene. rewrite Ene. reflexivity.
           ++ rewrite merge_all_ge by exact Fr'. constructor; [inversion P1; subst; assumption|]. inversion P2; subst; assumption.
        -- rewrite dedup_skip.
           2: { destruct l as [|c l]; [exact Ec|]. rewrite merge_cons. destruct (i_start c <=? i_start b); [|exact Ec].
                apply collapses_end; [inversion Fl; subst; assumption|exact Ka]. }
           rewrite IHl by assumption.
           assert (filter (fresh (a :: l)) (b :: r) = filter (fresh l) (b :: r)) as ->.
           { apply filter_ext_in. intros y Hy. unfold fresh, is_dup. cbn [existsb]. destruct (indel_eqb y a) eqn:Ey; [|reflexivity].
             apply indel_eqb_eq in Ey. subst y. destruct (Nat.eqb_spec (i_start a) (i_end a)) as [Ez|Ez]; [rewrite !andb_false_r; reflexivity|].
             exfalso. destruct Hy as [->|Hy].
             - assert (collapses a a = true) by (apply collapses_true; auto). congruence.
             - unfold from in Fr. rewrite Forall_forall in Fr. specialize (Fr a Hy). cbn in Fr. unfold ok in *.
               assert (before a b) as [Q|Q].
               { rewrite Forall_forall in P1. apply P1. eapply Permutation_in; [apply merge_perm|]. apply in_or_app. right. left. reflexivity. }
               + lia.
               + subst b. assert (collapses a a = true) by (apply collapses_true; auto). congruence. }
           rewrite merge_all_ge; [reflexivity|].
           apply Forall_forall. intros y Hy. apply filter_In in Hy. destruct Hy as [Hy _]. destruct Hy as [<-|Hy]; [exact Hab|].
           unfold from in Fr'. rewrite Forall_forall in Fr'. specialize (Fr' y Hy). cbn in Fr'. lia.
      * inversion P as [|? ? P1 P2]; subst. rewrite dedup_skip.
        2: { destruct r as [|c r].
             - rewrite merge_nil_r. destruct (collapses b a) eqn:E; [|reflexivity]. apply collapses_true in E. destruct E as [-> _]. lia.
             - rewrite merge_cons. destruct (i_start a <=? i_start c).
               + destruct (collapses b a) eqn:E; [|reflexivity]. apply collapses_true in E. destruct E as [-> _]. lia.
               + apply collapses_end; [inversion Fr; subst; assumption|exact Kb]. }
        rewrite IHr by assumption. cbn [filter].
        assert (fresh (a :: l) b = true) as ->.
        { unfold fresh, is_dup. rewrite existsb_none; [reflexivity|]. apply Forall_forall. intros y Hy.
          destruct (indel_eqb b y) eqn:E; [|reflexivity]. apply indel_eqb_eq in E. subst y. exfalso. destruct Hy as [->|Hy]; [lia|].
          unfold from in Fl. rewrite Forall_forall in Fl. specialize (Fl b Hy). cbn in Fl. unfold ok in Ka. lia. }
        rewrite merge_cons. destruct (Nat.leb_spec (i_start a) (i_start b)); [lia|reflexivity].
Qed.

Lemma class_start : forall p x y, class key_le p -> p x = true -> p y = true -> i_start x = i_start y.
Proof.
  intros p x y Hp Hx Hy. pose proof (Hp x y Hx Hy) as H1. pose proof (Hp y x Hy Hx) as H2. unfold key_le in *.
  rewrite orb_true_iff, andb_true_iff, Nat.ltb_lt, Nat.eqb_eq in *. lia.
Qed.

Lemma merge_filter : forall p, class key_le p -> forall l r, by_start l -> by_start r ->
  filter p (merge_starts l r) = filter p l ++ filter p r.
Proof.
  intros p Hp. induction l as [|a l IHl]; [reflexivity|]. induction r as [|b r IHr]; intros Hl Hr.
  - rewrite merge_nil_r. cbn [filter]. rewrite app_nil_r. reflexivity.
  - rewrite merge_cons. destruct (Nat.leb_spec (i_start a) (i_start b)) as [Hab|Hab].
    + cbn [filter]. cbn in Hl. rewrite IHl by tauto. destruct (p a); reflexivity.
    + cbn [filter] in *. cbn in Hr. rewrite IHr by tauto. destruct (p b) eqn:Eb; [|reflexivity].
      assert (filter p (a :: l) = []) as E.
      { apply filter_none. apply Forall_forall. intros y Hy. destruct (p y) eqn:Ey; [|reflexivity].
        pose proof (class_start p b y Hp Eb Ey). cbn in Hl. destruct Hy as [<-|Hy]; [lia|]. destruct Hl as [Hl _].
        unfold from in Hl. rewrite Forall_forall in Hl. specialize (Hl y Hy). cbn in Hl. lia. }
      cbn [filter] in E. rewrite E. reflexivity.
Qed.

Lemma by_start_filter : forall f l, by_start l -> by_start (filter f l).
Proof.
  intros f. induction l as [|a l IH]; cbn; [auto|]. intros [H1 H2]. destruct (f a); [|auto]. cbn. split; [|auto].
  apply Forall_forall. intros x Hx. apply filter_In in Hx. unfold from in H1. rewrite Forall_forall in H1. apply H1. apply Hx.
Qed.

Lemma before_in_order : forall l, pairs before l -> Forall ok l -> in_order (dedup_indels l).
Proof.
  destruct l as [|a l]; [intros; constructor|]. cbn [dedup_indels]. revert a. induction l as [|b l IH]; intros a P K; [constructor|].
  inversion P as [|? ? P1 P2]; subst. inversion P1 as [|? ? Pab P1']; subst. inversion K as [|? ? Ka K2]; subst. rewrite dedup_from_cons.
  destruct (collapses a b) eqn:E.
  - apply IH; [constructor; [exact P1'|inversion P2; subst; assumption]|constructor; [exact Ka|inversion K2; subst; assumption]].
  - specialize (IH b P2 K2).
    assert (exists r, dedup_from b l = b :: r) as [r Er].
    { clear. revert b. induction l as [|c l IH]; intro b; [exists []; reflexivity|]. rewrite dedup_from_cons.
      destruct (collapses b c); [apply IH|eauto]. }
    rewrite Er in *. constructor; [|exact IH]. destruct Pab as [H| ->]; [exact H|].
    destruct (Nat.eq_dec (i_start b) (i_end b)) as [Q|Q]; [lia|].
    assert (collapses b b = true) by (apply collapses_true; auto). congruence.
Qed.

Lemma union_ok_apart : forall a b, union_ok a b -> a <> b -> apart a b.
Proof. unfold union_ok, apart. intros a b [H|[H|[H _]]] N; [contradiction|left|right]; assumption. Qed.

Lemma pairs_app : forall (R : indel -> indel -> Prop) a b, pairs R a -> pairs R b ->
  (forall x y, In x a -> In y b -> R x y) -> pairs R (a ++ b).
Proof.
  intros R a b Ha Hb H. induction Ha as [|x a H1 H2 IH]; [exact Hb|]. cbn. constructor.
  - apply Forall_app. split; [exact H1|]. apply Forall_forall. intros y Hy. apply H; [left; reflexivity|exact Hy].
  - apply IH. intros. apply H; [right; assumption|assumption].
Qed.

Lemma pairs_filter : forall (R : indel -> indel -> Prop) f l, pairs R l -> pairs R (filter f l).
Proof.
  intros R f l H. induction H as [|x l H1 H2 IH]; cbn; [constructor|]. destruct (f x); [|exact IH]. constructor; [|exact IH].
  apply Forall_forall. intros y Hy. apply filter_In in Hy. rewrite Forall_forall in H1. apply H1. apply Hy.
Qed.

Lemma union_correct : forall l r u, in_order l -> in_order r -> Forall ok l -> Forall ok r ->
  edit_union l r = Some u ->
  in_order u /\ Permutation u (l ++ filter (fresh l) r) /\
  forall t, Forall (in_bounds t) l -> Forall (in_bounds t) r ->
    edit_apply u t = Some (replaced (l ++ filter (fresh l) r) 0 t).
Proof.
  intros l r u Ol Or Kl Kr H.
  assert (forall a b, In a l -> In b r -> union_ok a b) as Hu by (apply union_iff; try assumption; congruence).
  pose proof (in_order_by_start _ Ol Kl) as Sl. pose proof (in_order_by_start _ Or Kr) as Sr.
  assert (pairs before (merge_starts l r)) as P by (apply merge_pairs; try assumption; apply in_order_before; assumption).
  unfold edit_union in H. destruct (check_disjoint (merge_starts l r)); [|discriminate]. injection H as <-.
  assert (in_order (dedup_indels (merge_starts l r))) as Ou by (apply before_in_order; [exact P|apply merge_forall; assumption]).
  split; [exact Ou|]. rewrite dedup_merge in * by assumption.
  split; [symmetry; apply merge_perm|]. intros t Bl Br.
  assert (Forall (in_bounds t) (merge_starts l (filter (fresh l) r))) as Bu.
  { apply merge_forall; [exact Bl|]. apply Forall_forall. intros y Hy. apply filter_In in Hy. rewrite Forall_forall in Br. apply Br. apply Hy. }
  rewrite apply_in_order by assumption. f_equal. apply replaced_rearranged.
  - split; [apply merge_perm|]. intros p Hp. rewrite filter_app. apply merge_filter; [exact Hp|exact Sl|apply by_start_filter; exact Sr].
  - apply pairs_app; [apply in_order_pairs; assumption|apply pairs_filter; apply in_order_pairs; assumption|].
    intros x y Hx Hy. apply filter_In in Hy. destruct Hy as [Hy Hf]. destruct (Hu x y Hx Hy) as [->|Q].
    + unfold fresh, is_dup in Hf. assert (existsb (indel_eqb y) l = true) as Ex by (apply existsb_exists; exists y; split; [exact Hx|apply indel_eqb_eq; reflexivity]).
      rewrite Ex in Hf. cbn in Hf. rewrite negb_involutive in Hf. apply Nat.eqb_eq in Hf. left. lia.
    + unfold apart. destruct Q as [Q|[Q _]]; [left|right]; exact Q.
Qed.

(* ---------- offsets ---------- *)
Lemma offset_lost_or_moved : forall es p o res, in_order es -> Forall ok es -> from p es -> p <= o -> o - p <= res ->
  match apply_to_offset_from res es o with
  | Lost => exists e, In e es /\ i_start e < o < i_end e
  | Moved _ => forall e, In e es -> ~ (i_start e < o < i_end e)
  | TransportPanic => False
  end.
Proof.
  induction es as [|e es IH]; intros p o res Ho Hk Hf Hp Hr; cbn [apply_to_offset_from].
  - intros e [].
  - pose proof (in_order_from _ _ Ho Hk) as F. inversion Hk as [|? ? Ke Hk2]; subst. inversion Hf as [|? ? Hf1 _]; subst. unfold ok in Ke.
    destruct (Nat.leb_spec o (i_start e)) as [H|H].
    + intros x [<-|Hx] Q; [lia|]. unfold from in F. rewrite Forall_forall in F. specialize (F x Hx). cbn in F. lia.
    + destruct (Nat.ltb_spec o (i_end e)) as [H2|H2].
      * exists e. split; [left; reflexivity|lia].
      * destruct (Nat.ltb_spec (res + blen (i_insert e)) (i_end e - i_start e)); [lia|].
        specialize (IH (i_end e) o (res + blen (i_insert e) - (i_end e - i_start e)) (in_order_tail _ _ Ho) Hk2 F ltac:(lia) ltac:(lia)).
        destruct (apply_to_offset_from _ es o).
        -- destruct IH as [x [Hx Q]]. exists x. split; [right; exact Hx|exact Q].
        -- intros x [<-|Hx]; [lia|apply IH; exact Hx].
        -- exact IH.
Qed.

Definition starts_before (o : nat) (e : indel) : bool := i_start e <? o.
Definition starts_from (o : nat) (e : indel) : bool := o <=? i_start e.

Lemma filter_all : forall (A : Type) (f : A -> bool) l, Forall (fun x => f x = true) l -> filter f l = l.
Proof. intros A f l H. induction H as [|x l H _ IH]; cbn; [reflexivity|]. rewrite H, IH. reflexivity. Qed.

Lemma offset_script : forall off t es t', script off t es t' -> forall a b o res, t = a ++ b -> off + blen a = o ->
  (forall e, In e es -> ~ (i_start e < o < i_end e)) -> blen a <= res ->
  exists a' b', t' = a' ++ b' /\ script off a (filter (starts_before o) es) a' /\ script o b (filter (starts_from o) es) b' /\
    apply_to_offset_from res es o = Moved (res - blen a + blen a').
Proof.
  intros off t es t' H. induction H as [off t|off k d rest i s e es rest' Hs He H IH]; intros a b o res E Ho Hn Hr.
  - exists a, b. split; [exact E|]. split; [constructor|]. split; [constructor|]. cbn. f_equal. lia.
  - destruct (script_from _ _ _ _ H) as [F _]. cbn [apply_to_offset_from i_start i_end i_insert].
    destruct (Nat.leb_spec o s) as [L|L].
    + symmetry in E. destruct (app_split_blen a b k (d ++ rest) E ltac:(lia)) as [k2 [-> ->]].
      exists a, (k2 ++ i ++ rest'). split; [rewrite <- app_assoc; reflexivity|]. split; [|split].
      * rewrite filter_none; [constructor|]. constructor; [apply Nat.ltb_ge; exact L|]. eapply Forall_impl; [|exact F]. cbn. intros x Hx. apply Nat.ltb_ge. lia.
      * rewrite filter_all; [|constructor; [apply Nat.leb_le; exact L|]; eapply Forall_impl; [|exact F]; cbn; intros x Hx; apply Nat.leb_le; lia].
        apply ScEdit; [rewrite blen_app in Hs; lia|exact He|exact H].
      * f_equal. lia.
    + assert (e <= o) as L2.
      { destruct (Nat.le_gt_cases e o) as [Q|Q]; [exact Q|]. exfalso. apply (Hn _ (or_introl eq_refl)). cbn. lia. }
      replace (k ++ d ++ rest) with ((k ++ d) ++ rest) in E by (rewrite <- app_assoc; reflexivity).
      destruct (app_split_blen (k ++ d) rest a b E ltac:(rewrite blen_app; lia)) as [a2 [-> ->]]. rewrite !blen_app in *.
      destruct (Nat.ltb_spec o e); [lia|]. replace (e - s) with (blen d) by lia.
      destruct (Nat.ltb_spec (res + blen i) (blen d)); [lia|].
      destruct (IH a2 b o (res + blen i - blen d) eq_refl ltac:(lia)) as [a' [b' [-> [S1 [S2 S3]]]]].
      { intros x Hx. apply Hn. right. exact Hx. }
      { lia. }
      exists (k ++ i ++ a'), b'. split; [rewrite <- !app_assoc; reflexivity|]. cbn [filter]. unfold starts_before at 1, starts_from at 1. cbn [i_start].
      replace (s <? o) with true by (symmetry; apply Nat.ltb_lt; lia). replace (o <=? s) with false by (symmetry; apply Nat.leb_gt; lia).
      split; [rewrite <- app_assoc; apply ScEdit; assumption|]. split; [exact S2|]. rewrite S3. f_equal. rewrite !blen_app. lia.
Qed.

Lemma from_0 : forall es, from 0 es.
Proof. intro es. apply Forall_forall. intros. lia. Qed.

Lemma offset_lost_iff : forall t es o, in_order es -> Forall (in_bounds t) es ->
  (apply_to_offset es o = Lost <-> exists e, In e es /\ i_start e < o < i_end e) /\ apply_to_offset es o <> TransportPanic.
Proof.
  intros t es o Ho Hb. pose proof (offset_lost_or_moved es 0 o o Ho (bounds_ok _ _ Hb) (from_0 es) ltac:(lia) ltac:(lia)) as H.
  unfold apply_to_offset. destruct (apply_to_offset_from o es o).
  - split; [tauto|discriminate].
  - split; [|discriminate]. split; [discriminate|]. intros [e [H1 H2]]. exfalso. exact (H e H1 H2).
  - contradiction.
Qed.

Lemma offset_moved : forall t es o o' a b, in_order es -> Forall (in_bounds t) es ->
  split_at o t = Some (a, b) -> apply_to_offset es o = Moved o' ->
  split_at o' (replaced es 0 t) =
    Some (replaced (filter (fun e => i_start e <? o) es) 0 a, replaced (filter (fun e => o <=? i_start e) es) o b).
Proof.
  intros t es o o' a b Ho Hb Hs Hm. apply split_at_sound in Hs. destruct Hs as [-> Ha].
  pose proof (offset_lost_or_moved es 0 o o Ho (bounds_ok _ _ Hb) (from_0 es) ltac:(lia) ltac:(lia)) as H.
  unfold apply_to_offset in Hm. rewrite Hm in H.
  destruct (script_exists es [] (a ++ b) Ho (from_0 es) Hb) as [t' S]. cbn [blen] in S.
  destruct (offset_script _ _ _ _ S a b o o eq_refl Ha H ltac:(lia)) as [a' [b' [-> [S1 [S2 S3]]]]].
  rewrite Hm in S3. injection S3 as ->. rewrite (replaced_script _ _ _ _ S).
  rewrite <- (replaced_script _ _ _ _ S1), <- (replaced_script _ _ _ _ S2). unfold starts_before, starts_from.
  rewrite Ha, Nat.sub_diag. cbn [Nat.add]. apply split_at_app.
Qed.

Lemma offset_same_char : forall t es o o' a c b, in_order es -> Forall (in_bounds t) es ->
  split_at o t = Some (a, c :: b) -> apply_to_offset es o = Moved o' ->
  (forall e, In e es -> i_start e <> o) ->
  exists a' b', split_at o' (replaced es 0 t) = Some (a', c :: b').
Proof.
  intros t es o o' a c b Ho Hb Hs Hm Hn. rewrite (offset_moved _ _ _ _ _ _ Ho Hb Hs Hm).
  eexists. rewrite replaced_unfold, placed_none, removed_none.
  - cbn [app]. eexists. reflexivity.
  - apply Forall_forall. intros e He. apply filter_In in He. destruct He as [He L]. apply Nat.leb_le in L. specialize (Hn e He). lia.
  - apply Forall_forall. intros e He. apply filter_In in He. apply Hn. apply He.
Qed.

Lemma replaced_last : forall es t off x,
  removed_at es (off + blen t) = false -> placed_at es (off + blen t + utf8_len x) = [] ->
  exists a, replaced es off (t ++ [x]) = a ++ [x].
Proof.
  induction t as [|c t IH]; intros off x R P; cbn [app replaced blen] in *.
  - rewrite Nat.add_0_r in R, P. rewrite R, P. eexists. reflexivity.
  - rewrite <- !Nat.add_assoc in *. rewrite (Nat.add_assoc off) in R.
    destruct (IH (off + utf8_len c) x) as [a E].
    + exact R.
    + rewrite <- !Nat.add_assoc. exact P.
    + rewrite E. eexists. rewrite !app_assoc. reflexivity.
Qed.

Lemma boundary_next : forall a x b e, boundary (a ++ x :: b) e -> blen a < e -> blen a + utf8_len x <= e.
Proof.
  intros a x b e [u [w [E <-]]] L. revert a E L. induction u as [|c u IH]; intros a E L; [cbn in L; lia|].
  destruct a as [|c' a]; injection E as -> E; cbn [blen] in *.
  - lia.
  - specialize (IH a E). lia.
Qed.

Lemma offset_untouched : forall t es o a x y b, in_order es -> Forall (in_bounds t) es ->
  split_at o t = Some (a ++ [x], y :: b) -> invalidates_offset es o = false ->
  exists o' a' b', apply_to_offset es o = Moved o' /\
    split_at o' (replaced es 0 t) = Some (a' ++ [x], y :: b').
Proof.
  intros t es o a x y b Ho Hb Hs Hi.
  assert (N : forall e, In e es -> i_start e <= o -> i_end e < o).
  { intros e He L. unfold invalidates_offset in Hi. destruct (Nat.lt_ge_cases (i_end e) o) as [G|G]; [exact G|].
    exfalso. rewrite <- Bool.not_true_iff_false, existsb_exists in Hi. apply Hi. exists e. split; [exact He|].
    apply andb_true_iff. split; apply Nat.leb_le; assumption. }
  destruct (offset_lost_iff t es o Ho Hb) as [L P].
  destruct (apply_to_offset es o) as [|o'|] eqn:E; [|exists o'|contradiction].
  { destruct (proj1 L eq_refl) as [e [He Hr]]. specialize (N e He). lia. }
  pose proof (offset_moved _ _ _ _ _ _ Ho Hb Hs E) as M.
  destruct (offset_same_char _ _ _ _ _ _ _ Ho Hb Hs E) as [a' [b' S]].
  { intros e He Hq. specialize (N e He). rewrite Forall_forall in Hb. destruct (Hb e He) as [B _]. lia. }
  rewrite S in M. injection M as Ma _. apply split_at_sound in Hs. destruct Hs as [-> Hl].
  rewrite blen_app in Hl. cbn [blen] in Hl. rewrite Nat.add_0_r in Hl.
  destruct (replaced_last (filter (fun e => i_start e <? o) es) a 0 x) as [a2 E2].
  - cbn [Nat.add]. unfold removed_at. rewrite <- Bool.not_true_iff_false, existsb_exists.
    intros [e [He Hr]]. apply filter_In in He. destruct He as [He Hf]. apply Nat.ltb_lt in Hf.
    apply andb_true_iff in Hr. destruct Hr as [R1 R2]. apply Nat.ltb_lt in R2.
    specialize (N e He). rewrite Forall_forall in Hb. destruct (Hb e He) as [_ [_ B]].
    rewrite <- app_assoc in B. apply boundary_next in B; [lia|exact R2].
  - cbn [Nat.add]. rewrite Hl. apply placed_none. apply Forall_forall. intros e He.
    apply filter_In in He. destruct He as [_ Hf]. apply Nat.ltb_lt in Hf. lia.
  - exists a2, b'. split; [reflexivity|]. rewrite S, Ma, E2. reflexivity.
Qed.
