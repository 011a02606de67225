(** Correctness of the binary search on ordered probes. *)
From Coq Require Import List Arith Lia.
From Verif Require Import BinSearchModel.
Import ListNotations.

Definition rank (c : comparison) : nat := match c with Lt => 0 | Eq => 1 | Gt => 2 end.

Definition monotone {A} (f : A -> comparison) (l : list A) : Prop :=
  forall i j a b, i <= j -> nth_error l i = Some a -> nth_error l j = Some b ->
    rank (f a) <= rank (f b).

Section S.
  Variable A : Type.
  Variable f : A -> comparison.

  Lemma bs_loop_inv : forall fuel l base size,
    monotone f l ->
    1 <= size -> size <= fuel -> base + size <= length l ->
    (forall i a, base + size <= i -> nth_error l i = Some a -> f a = Gt) ->
    (base = 0 \/ exists a, nth_error l base = Some a /\ f a <> Gt) ->
    let b := bs_loop f fuel l base size in
    b < length l /\
    (forall i a, b + 1 <= i -> nth_error l i = Some a -> f a = Gt) /\
    (b = 0 \/ exists a, nth_error l b = Some a /\ f a <> Gt).
  Proof.
    induction fuel as [|fuel IH]; intros l base size Hm H1 Hf Hlen Hhi Hlo; [lia|].
    cbn [bs_loop]. destruct (Nat.leb_spec size 1) as [Hs|Hs].
    - assert (size = 1) by lia. subst size. cbn zeta. repeat split; [lia|assumption|assumption].
    - assert (1 <= size / 2) as Hh1 by (apply Nat.div_le_lower_bound; lia).
      assert (size / 2 < size) as Hh2 by (apply Nat.div_lt; lia).
      set (half := size / 2) in *. cbn zeta.
      assert (base + half < length l) as Hmid by lia.
      destruct (nth_error l (base + half)) as [x|] eqn:Ex.
      2:{ apply nth_error_None in Ex. lia. }
      destruct (f x) eqn:Efx.
      + apply IH; try assumption; try lia.
        * intros i a Hi. apply Hhi. lia.
        * right. exists x. split; [assumption|congruence].
      + apply IH; try assumption; try lia.
        * intros i a Hi. apply Hhi. lia.
        * right. exists x. split; [assumption|congruence].
      + apply IH; try assumption; try lia.
        intros i a Hi Ha.
        assert (rank (f x) <= rank (f a)) as Hr.
        { apply (Hm (base + half) i); [|assumption|assumption].
          (* size - half <= i - base, and half <= size - half *)
          assert (half <= size - half); [|lia].
          assert (2 * half <= size); [|lia]. unfold half. apply Nat.mul_div_le. lia. }
        rewrite Efx in Hr. cbn in Hr. destruct (f a); cbn in Hr; [lia|lia|reflexivity].
  Qed.

  Lemma binary_search_spec : forall l, monotone f l ->
    match binary_search_by f l with
    | Found i => exists a, nth_error l i = Some a /\ f a = Eq
    | NotFound i =>
      i <= length l /\
      (forall j a, j < i -> nth_error l j = Some a -> f a = Lt) /\
      (forall j a, i <= j -> nth_error l j = Some a -> f a = Gt)
    end.
  Proof.
    intros l Hm. destruct l as [|x0 l0] eqn:El.
    - cbn. split; [lia|]. split; intros j a Hj H; destruct j; discriminate.
    - rewrite <- El in *. unfold binary_search_by. rewrite El. rewrite <- El.
      destruct (bs_loop_inv (length l) l 0 (length l) Hm) as [Hb [Hhi Hlo]].
      { subst; cbn; lia. } { lia. } { lia. }
      { intros i a Hi Ha. assert (i < length l) by (apply nth_error_Some; congruence). lia. }
      { left. reflexivity. }
      set (b := bs_loop f (length l) l 0 (length l)) in *.
      destruct (nth_error l b) as [x|] eqn:Ex.
      2:{ apply nth_error_None in Ex. lia. }
      destruct (f x) eqn:Efx.
      + exists x. auto.
      + split; [lia|]. split.
        * intros j a Hj Ha. assert (rank (f a) <= rank (f x)) as Hr.
          { apply (Hm j b); [lia|assumption|assumption]. }
          rewrite Efx in Hr. destruct (f a); cbn in Hr; [lia|reflexivity|lia].
        * intros j a Hj Ha. apply (Hhi j a); [lia|assumption].
      + destruct Hlo as [Hlo|[a [Ha Hna]]].
        * rewrite Hlo in *. split; [lia|]. split.
          -- intros j a Hj. lia.
          -- intros j a Hj Ha. assert (rank (f x) <= rank (f a)) as Hr.
             { apply (Hm 0 j); [lia|assumption|assumption]. }
             rewrite Efx in Hr. destruct (f a); cbn in Hr; [lia|lia|reflexivity].
        * congruence.
  Qed.
End S.
