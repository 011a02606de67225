(** R's parser looks at the kinds of tokens only: it commutes with a change of
    their texts, and more fuel does not change what it builds. *)
From Coq Require Import List Arith Bool NArith Lia.
From Verif Require Import Text SettingsModel SyntaxKind FmtTree FmtSpec RReadSpec FmtLineSpec
  GrammarSpec GrammarProofs.
Import ListNotations.

Section Map.
Variable g : token -> token.
Hypothesis Gk : forall t, t_kind (g t) = t_kind t.

Fixpoint tmap (t : term) : term :=
  match t with
  | Atom ts => Atom (map g ts)
  | Prefix op a => Prefix (g op) (tmap a)
  | Infix l op r => Infix (tmap l) (g op) (tmap r)
  | Apply f k args => Apply (tmap f) k (map (fun '(x, y) => (omap tmap x, omap tmap y)) args)
  | Round a => Round (tmap a)
  | Curly l => Curly (map tmap l)
  | Fun kw ps b => Fun (g kw) (map (fun '(x, y) => (omap tmap x, omap tmap y)) ps) (tmap b)
  | If c x e => If (tmap c) (tmap x) (omap tmap e)
  | For v s b => For (tmap v) (tmap s) (tmap b)
  | While c b => While (tmap c) (tmap b)
  | Repeat b => Repeat (tmap b)
  end.
Definition imap : input -> input := map (fun x => (g (fst x), snd x)).
Definition pairs (i : option term * option term) : option term * option term :=
  (omap tmap (fst i), omap tmap (snd i)).
Definition both {A B : Type} (h : A -> B) (x : option (A * input)) : option (B * input) :=
  match x with Some (a, r) => Some (h a, imap r) | None => None end.
Lemma pairs_map l : map (fun '(x, y) => (omap tmap x, omap tmap y)) l = map pairs l.
Proof. apply map_ext. intros [x y]. reflexivity. Qed.

Lemma next_map ts : next (imap ts) = both g (next ts).
Proof. destruct ts as [|[t [|]] r]; reflexivity. Qed.
Lemma next_is_map k ts : next_is k (imap ts) = next_is k ts.
Proof.
  unfold next_is. rewrite next_map. destruct (next ts) as [[t r]|]; [|reflexivity]. cbn. rewrite Gk.
  reflexivity.
Qed.
Lemma eat_map k ts : eat k (imap ts) = omap imap (eat k ts).
Proof.
  unfold eat. rewrite next_map. destruct (next ts) as [[t r]|]; [|reflexivity]. cbn. rewrite Gk.
  destruct (kind_eqb (t_kind t) k); reflexivity.
Qed.
Lemma string_rest_map ts : string_rest (imap ts) = both (map g) (string_rest ts).
Proof.
  induction ts as [|[t [|]] r IH]; [reflexivity|reflexivity|]. cbn [imap map fst snd string_rest].
  rewrite Gk. destruct (kind_eqb (t_kind t) STRING_CLOSE); [reflexivity|].
  change (map (fun x => (g (fst x), snd x)) r) with (imap r). rewrite IH.
  destruct (string_rest r) as [[s q]|]; reflexivity.
Qed.
Lemma atom_map ts : atom (imap ts) = both tmap (atom ts).
Proof.
  unfold atom. rewrite next_map. destruct (next ts) as [[t r]|]; [|reflexivity]. cbn. rewrite Gk.
  destruct (atomic (t_kind t)); [reflexivity|]. destruct (kind_eqb (t_kind t) STRING_OPEN); [|reflexivity].
  rewrite string_rest_map. destruct (string_rest r) as [[s q]|]; reflexivity.
Qed.
Lemma comparison_map x : is_comparison (tmap x) = is_comparison x.
Proof. destruct x; cbn; rewrite ?Gk; reflexivity. Qed.

Definition Commutes (f : nat) : Prop :=
  (forall eq least ts, expression f eq least (imap ts) = both tmap (expression f eq least ts)) /\
  (forall eq ts, start f eq (imap ts) = both tmap (start f eq ts)) /\
  (forall eq least x ts, operators f eq least (tmap x) (imap ts) = both tmap (operators f eq least x ts)) /\
  (forall ts, block f (imap ts) = both (map tmap) (block f ts)) /\
  (forall params close ts, items f params close (imap ts) = both (map pairs) (items f params close ts)) /\
  (forall params close ts, more_items f params close (imap ts) = both (map pairs) (more_items f params close ts)) /\
  (forall params close ts, item f params close (imap ts) = both pairs (item f params close ts)).

Lemma imap_cons t b r : imap ((t, b) :: r) = (g t, b) :: imap r.
Proof. reflexivity. Qed.
Lemma commutes f : Commutes f.
Proof.
  induction f as [|f [He [Hs [Ho [Hb [Hi [Hm Ht]]]]]]]; [repeat split; reflexivity|].
  assert (One : forall t r, (g t, false) :: imap r = imap ((t, false) :: r)) by reflexivity.
  unfold Commutes. repeat match goal with |- _ /\ _ => split end.
  - intros eq least ts. cbn [expression]. rewrite Hs. destruct (start f eq ts) as [[x r]|]; [|reflexivity].
    cbn [both]. apply Ho.
  - intros eq ts. cbn [start]. rewrite next_map. destruct (next ts) as [[t r]|] eqn:N; [|reflexivity].
    cbn [both]. rewrite Gk. destruct (heading_of (t_kind t)).
    + rewrite He. destruct (expression f true LEVEL_HELP r) as [[x q]|]; [|reflexivity]. cbn [both].
      rewrite eat_map. destruct (eat R_PAREN q); reflexivity.
    + rewrite Hb. destruct (block f r) as [[l q]|]; [|reflexivity]. cbn [both].
      rewrite eat_map. destruct (eat R_CURLY q); reflexivity.
    + rewrite eat_map. destruct (eat L_PAREN r) as [q|]; [|reflexivity]. cbn [omap].
      rewrite Hi. destruct (items f true R_PAREN q) as [[l q1]|]; [|reflexivity]. cbn [both].
      rewrite He. destruct (expression f true LEVEL_BODY q1) as [[b q2]|]; [|reflexivity]. cbn [both tmap].
      rewrite pairs_map. reflexivity.
    + rewrite eat_map. destruct (eat L_PAREN r) as [q|]; [|reflexivity]. cbn [omap].
      rewrite He. destruct (expression f false LEVEL_HELP q) as [[c q1]|]; [|reflexivity]. cbn [both].
      rewrite eat_map. destruct (eat R_PAREN q1) as [q2|]; [|reflexivity]. cbn [omap].
      rewrite He. destruct (expression f true LEVEL_BODY q2) as [[x q3]|]; [|reflexivity]. cbn [both].
      rewrite next_is_map. destruct (next_is ELSE_KW q3); [|reflexivity].
      rewrite eat_map. destruct (eat ELSE_KW q3) as [q4|]; [|reflexivity]. cbn [omap].
      rewrite He. destruct (expression f true LEVEL_BODY q4) as [[y q5]|]; reflexivity.
    + rewrite eat_map. destruct (eat L_PAREN r) as [q|]; [|reflexivity]. cbn [omap].
      rewrite atom_map. destruct (atom q) as [[v q1]|]; [|reflexivity]. cbn [both].
      rewrite eat_map. destruct (eat IN_KW q1) as [q2|]; [|reflexivity]. cbn [omap].
      rewrite He. destruct (expression f false LEVEL_HELP q2) as [[s q3]|]; [|reflexivity]. cbn [both].
      rewrite eat_map. destruct (eat R_PAREN q3) as [q4|]; [|reflexivity]. cbn [omap].
      rewrite He. destruct (expression f true LEVEL_BODY q4) as [[y q5]|]; reflexivity.
    + rewrite eat_map. destruct (eat L_PAREN r) as [q|]; [|reflexivity]. cbn [omap].
      rewrite He. destruct (expression f false LEVEL_HELP q) as [[c q1]|]; [|reflexivity]. cbn [both].
      rewrite eat_map. destruct (eat R_PAREN q1) as [q2|]; [|reflexivity]. cbn [omap].
      rewrite He. destruct (expression f true LEVEL_BODY q2) as [[x q3]|]; reflexivity.
    + rewrite He. destruct (expression f true LEVEL_BODY r) as [[x q3]|]; reflexivity.
    + rewrite He. destruct (expression f _ (S level) r) as [[x q3]|]; reflexivity.
    + apply atom_map.
  - intros eq least x ts. cbn [operators]. rewrite next_map. destruct (next ts) as [[t r]|] eqn:N; [|reflexivity].
    cbn [both]. rewrite Gk. destruct (opening (t_kind t)) as [c|].
    + destruct (least <=? LEVEL_CALL); [|reflexivity]. rewrite Hi.
      destruct (items f false (closing c) r) as [[l q]|]; [|reflexivity]. cbn [both].
      rewrite <- Ho. cbn [tmap]. rewrite pairs_map. reflexivity.
    + destruct (infix_level (t_kind t)) as [level|]; [|reflexivity].
      destruct ((least <=? level) && (eq || negb (kind_eqb (t_kind t) EQUAL))); [|reflexivity].
      rewrite comparison_map. destruct ((level =? LEVEL_COMPARE) && is_comparison x); [reflexivity|].
      rewrite He. destruct (expression f eq (right_of (t_kind t) level) r) as [[y q]|]; [|reflexivity].
      cbn [both]. rewrite <- Ho. reflexivity.
  - intros ts. destruct ts as [|[t b] r]; [reflexivity|]. rewrite imap_cons. cbn [block]. rewrite Gk.
    destruct (kind_eqb (t_kind t) R_CURLY); [reflexivity|]. rewrite One, He.
    destruct (expression f true LEVEL_HELP ((t, false) :: r)) as [[x q]|]; [|reflexivity]. cbn [both].
    destruct q as [|[t' mark] q]; [reflexivity|]. pose proof (Hb ((t', mark) :: q)) as Z.
    rewrite imap_cons in *. rewrite Gk.
    destruct (kind_eqb (t_kind t') R_CURLY); [reflexivity|]. destruct mark; [|reflexivity].
    rewrite Z. destruct (block f ((t', true) :: q)) as [[l q1]|]; reflexivity.
  - intros params close ts. cbn [items]. rewrite next_is_map. destruct (next_is close ts); [|apply Hm].
    rewrite eat_map. destruct (eat close ts); reflexivity.
  - intros params close ts. cbn [more_items]. rewrite Ht. destruct (item f params close ts) as [[i r]|]; [|reflexivity].
    cbn [both]. rewrite next_is_map. destruct (next_is COMMA r).
    + rewrite eat_map. destruct (eat COMMA r) as [q|]; [|reflexivity]. cbn [omap]. rewrite Hm.
      destruct (more_items f params close q) as [[l q1]|]; reflexivity.
    + rewrite eat_map. destruct (eat close r) as [q|]; reflexivity.
  - intros params close ts. cbn [item]. destruct params.
    + rewrite atom_map. destruct (atom ts) as [[x r]|]; [|reflexivity]. cbn [both].
      rewrite next_is_map. destruct (next_is EQUAL r); [|reflexivity].
      rewrite eat_map. destruct (eat EQUAL r) as [q|]; [|reflexivity]. cbn [omap].
      rewrite He. destruct (expression f false LEVEL_HELP q) as [[v q1]|]; reflexivity.
    + rewrite !next_is_map. destruct (next_is COMMA ts || next_is close ts); [reflexivity|].
      rewrite He. destruct (expression f false LEVEL_HELP ts) as [[x r]|]; [|reflexivity]. cbn [both].
      rewrite next_is_map. destruct (next_is EQUAL r); [|reflexivity].
      destruct x; try reflexivity. cbn [tmap].
      rewrite eat_map. destruct (eat EQUAL r) as [q|]; [|reflexivity]. cbn [omap].
      rewrite !next_is_map. destruct (next_is COMMA q || next_is close q); [reflexivity|].
      rewrite He. destruct (expression f false LEVEL_HELP q) as [[v q1]|]; reflexivity.
Qed.
End Map.

(** * Fuel *)

Definition grows {A : Type} (x y : option A) : Prop := x = None \/ y = x.
Lemma grows_bind {A B C} (x y : option (A * B)) (k k' : A -> B -> option C) :
  grows x y -> (forall a b, grows (k a b) (k' a b)) ->
  grows (match x with Some (a, b) => k a b | None => None end)
        (match y with Some (a, b) => k' a b | None => None end).
Proof. intros [->| ->] H; [left; reflexivity|]. destruct x as [[a b]|]; [apply H|left; reflexivity]. Qed.
Lemma grows_eat {A C} (x : option A) (k k' : A -> option C) :
  (forall a, grows (k a) (k' a)) ->
  grows (match x with Some a => k a | None => None end) (match x with Some a => k' a | None => None end).
Proof. intros H. destruct x; [apply H|left; reflexivity]. Qed.
Lemma grows_refl {A} (x : option A) : grows x x.
Proof. right. reflexivity. Qed.

Definition Grows (f f' : nat) : Prop :=
  (forall eq least ts, grows (expression f eq least ts) (expression f' eq least ts)) /\
  (forall eq ts, grows (start f eq ts) (start f' eq ts)) /\
  (forall eq least x ts, grows (operators f eq least x ts) (operators f' eq least x ts)) /\
  (forall ts, grows (block f ts) (block f' ts)) /\
  (forall params close ts, grows (items f params close ts) (items f' params close ts)) /\
  (forall params close ts, grows (more_items f params close ts) (more_items f' params close ts)) /\
  (forall params close ts, grows (item f params close ts) (item f' params close ts)).
Ltac grow :=
  repeat first
    [ apply grows_refl | solve [auto] | progress intros
    | apply grows_bind | apply grows_eat
    | match goal with |- grows (if ?b then _ else _) _ => destruct b end
    | match goal with |- grows (match ?b with _ => _ end) _ => destruct b end ].
Lemma grows_step f f' : Grows f f' -> Grows (S f) (S f').
Proof.
  intros [He [Hs [Ho [Hb [Hi [Hm Ht]]]]]].
  unfold Grows. repeat match goal with |- _ /\ _ => split end; intros.
  - cbn [expression]. grow.
  - cbn [start]. grow.
  - cbn [operators]. grow.
  - cbn [block]. grow.
  - cbn [items]. grow.
  - cbn [more_items]. grow.
  - cbn [item]. grow.
Qed.
Lemma fuel_grows f : Grows f (S f).
Proof.
  induction f as [|f IH]; [|apply grows_step, IH].
  unfold Grows. repeat match goal with |- _ /\ _ => split end; intros; left; reflexivity.
Qed.
Lemma block_more f ts x : block f ts = Some x -> forall f', f <= f' -> block f' ts = Some x.
Proof.
  intros H. induction 1 as [|f' L IH]; [exact H|].
  destruct (fuel_grows f') as [_ [_ [_ [Hb _]]]]. destruct (Hb ts) as [E|E]; congruence.
Qed.

(** Tokens of the same kinds are parsed alike. *)
Lemma parses_map g ts l : (forall t, t_kind (g t) = t_kind t) -> parses (imap g ts) l ->
  exists l', parses ts l' /\ map (tmap g) l' = l.
Proof.
  intros Gk [n P]. pose proof (P n (le_n n)) as E. destruct (commutes g Gk n) as [_ [_ [_ [Hb _]]]].
  rewrite Hb in E. destruct (block n ts) as [[l' r]|] eqn:B; [|discriminate]. cbn [both] in E.
  injection E as E1 E2. destruct r as [|x r]; [|discriminate E2].
  exists l'. split; [|exact E1]. exists n. exact (block_more n ts _ B).
Qed.
Lemma map_parses g ts l : (forall t, t_kind (g t) = t_kind t) -> parses ts l ->
  parses (imap g ts) (map (tmap g) l).
Proof.
  intros Gk [n P]. exists n. intros f L. destruct (commutes g Gk f) as [_ [_ [_ [Hb _]]]].
  rewrite Hb, (P f L). reflexivity.
Qed.

(** * Carriage returns in strings *)

Lemma settled_kind t : t_kind (settled t) = t_kind t.
Proof.
  unfold settled. destruct (kind_eqb (t_kind t) STRING_CONTENT) eqn:K; [|reflexivity].
  apply kind_eqb_eq in K. rewrite K. reflexivity.
Qed.
Lemma settle_settle x : settle (settle x) = settle x.
Proof.
  induction x as [|c x IH]; [reflexivity|]. change (settle (c :: x)) with
    (match settle x with d :: _ => if ((c =? CR) && (d =? LF))%N then settle x else c :: settle x | [] => c :: settle x end).
  destruct (settle x) as [|d q] eqn:E; [reflexivity|].
  destruct ((c =? CR) && (d =? LF))%N eqn:B; [exact IH|].
  change (settle (c :: d :: q)) with
    (match settle (d :: q) with e :: _ => if ((c =? CR) && (e =? LF))%N then settle (d :: q) else c :: settle (d :: q) | [] => c :: settle (d :: q) end).
  rewrite IH, B. reflexivity.
Qed.
Lemma settled_settled t : settled (settled t) = settled t.
Proof.
  unfold settled. destruct (kind_eqb (t_kind t) STRING_CONTENT) eqn:K; [|rewrite K; reflexivity].
  cbn [t_kind t_text tk]. change (kind_eqb STRING_CONTENT STRING_CONTENT) with true. cbn iota.
  rewrite settle_settle. reflexivity.
Qed.
Lemma plain_settled st op : plain_op st (settled op) = plain_op st op.
Proof. unfold plain_op. rewrite settled_kind, settled_settled. reflexivity. Qed.
Lemma canon_settled st : forall t, canon st (tmap settled t) = canon st t.
Proof.
  fix IH 1. intros t.
  assert (Io : forall x, omap (canon st) (omap (tmap settled) x) = omap (canon st) x).
  { intros [x|]; cbn [omap]; [rewrite IH|]; reflexivity. }
  destruct t as [ts|op a|l op r|f k args|a|l|kw ps b|c x e|v s b|c b|b]; cbn [tmap canon].
  - rewrite map_map. f_equal. apply map_ext, settled_settled.
  - rewrite settled_settled, IH. reflexivity.
  - rewrite !IH, plain_settled. reflexivity.
  - rewrite IH. f_equal. induction args as [|[x y] args Ha]; [reflexivity|]. cbn [map].
    f_equal; [|exact Ha]. destruct x as [x|], y as [y|]; cbn [omap]; rewrite ?IH; reflexivity.
  - rewrite IH. reflexivity.
  - f_equal. induction l as [|x l Hl]; [reflexivity|]. cbn [map]. rewrite IH, Hl. reflexivity.
  - rewrite IH, settled_settled. f_equal. induction ps as [|[x y] ps Hp]; [reflexivity|]. cbn [map].
    f_equal; [|exact Hp]. destruct x as [x|], y as [y|]; cbn [omap]; rewrite ?IH; reflexivity.
  - rewrite !IH. f_equal. destruct e as [e|]; cbn [omap]; rewrite ?IH; reflexivity.
  - rewrite !IH. reflexivity.
  - rewrite !IH. reflexivity.
  - rewrite IH. reflexivity.
Qed.
Lemma same_settled st l l' : map (tmap settled) l = map (tmap settled) l' -> same_program st l l'.
Proof.
  intros E. unfold same_program. rewrite <- (map_ext _ _ (canon_settled st) l), <- (map_ext _ _ (canon_settled st) l').
  rewrite <- !(map_map (tmap settled) (canon st)), E. reflexivity.
Qed.
