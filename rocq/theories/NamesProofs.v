(** Tokens have the kind of their text. *)
From Coq Require Import List NArith Bool Arith Lia String.
From Verif Require Import Text TextFacts SyntaxKind ParseModel ParseSpec ParseTree FmtTree CommentsSpec FactorySpec
  PreorderModel PreorderSpec PreorderProofs NamesSpec.
Import ListNotations.

Definition text_of_kind (name : text) (k : kind) : bool :=
  match fixed_text k with
  | Some x => match named_text name with Some y => text_eqb x y | None => false end
  | None => existsb (kind_eqb k) varying
  end.
Definition entry_ok (e : text * kind) : bool :=
  match class_of (snd e) with
  | C_value lit | C_skip lit => text_of_kind (fst e) lit
  | C_token => text_of_kind (fst e) (snd e)
  | C_content => text_of_kind (fst e) STRING_CONTENT
  | _ => true
  end.

Lemma entries_ok : forallb entry_ok node_kinds = true.
Proof. vm_compute. reflexivity. Qed.

Lemma kind_of_ok name : entry_ok (name, kind_of name) = true.
Proof.
  unfold kind_of, node_syntax_kind.
  destruct (find (fun x => text_eqb (fst x) name) node_kinds) as [[n k]|] eqn:E; [|reflexivity].
  apply find_some in E. destruct E as [H N]. cbn [fst] in N. apply text_eqb_eq in N. subst n.
  pose proof entries_ok as A. rewrite forallb_forall in A. exact (A _ H).
Qed.

Lemma text_of_kind_sound name k : text_of_kind name k = true ->
  (forall x, fixed_text k = Some x -> named_text name = Some x) /\ (fixed_text k = None -> In k varying).
Proof.
  unfold text_of_kind. destruct (fixed_text k) as [x|].
  - destruct (named_text name) as [y|]; [|discriminate]. intros E. apply text_eqb_eq in E. subst y.
    split; [intros ? [= <-]; reflexivity|discriminate].
  - intros E. split; [discriminate|]. intros _. apply existsb_exists in E. destruct E as (v & I & V).
    apply kind_eqb_eq in V. now subst v.
Qed.

(** Each token of the source is a node with a fitting name. *)
Lemma leaf_named t k s e : In (LTok k s e) (leaves (conv t)) ->
  exists d, In d (nodes_of t) /\ n_start d = s /\ n_end d = e /\ text_of_kind (n_name d) k = true.
Proof.
  induction t as [n f a b cs IH] using nts_induction. cbn [conv leaves].
  pose proof (kind_of_ok n) as K. unfold entry_ok in K. cbn [fst snd] in K.
  assert (Deep : In (LTok k s e) (flat_map leaves (map conv cs)) ->
    exists d, In d (nodes_of (NTS n f a b cs)) /\ n_start d = s /\ n_end d = e /\ text_of_kind (n_name d) k = true).
  { intros H. apply in_flat_map in H. destruct H as (x & Hx & H). apply in_map_iff in Hx.
    destruct Hx as (c & <- & Hc). rewrite Forall_forall in IH. destruct (IH c Hc H) as (d & I & R).
    exists d. split; [|exact R]. cbn [nodes_of]. right. apply in_flat_map. now exists c. }
  assert (Here : forall k', text_of_kind n k' = true -> In (LTok k s e) [LTok k' a b] ->
    exists d, In d (nodes_of (NTS n f a b cs)) /\ n_start d = s /\ n_end d = e /\ text_of_kind (n_name d) k = true).
  { intros k' T [H|[]]. inversion H; subst. exists (NTS n f s e cs). repeat split; [now left|exact T]. }
  destruct (class_of (kind_of n)); try exact Deep; try (now apply Here).
  intros [H|[]]. discriminate.
Qed.

Lemma leaf_text src t k s e : called src t -> In (LTok k s e) (leaves (conv t)) ->
  (forall x, fixed_text k = Some x -> slice s e src = Some x) /\ (fixed_text k = None -> In k varying).
Proof.
  intros C H. destruct (leaf_named t k s e H) as (d & I & <- & <- & T).
  unfold called in C. rewrite Forall_forall in C. apply text_of_kind_sound in T. destruct T as [T V].
  split; [|exact V]. intros x F. apply (C d I). now apply T.
Qed.

Lemma spelled_called src t : called src t -> spelled src (conv t).
Proof.
  intros C. unfold spelled. apply Forall_forall. intros x H. unfold source_tokens in H.
  apply in_flat_map in H. destruct H as ([k s e|s e] & L & H); [|destruct H].
  destruct (leaf_text src t k s e C L) as [T _].
  destruct (slice s e src) as [y|]; [|destruct H]. destruct H as [<-|[]]. cbn [t_kind t_text tk].
  destruct (spelling k) as [z|] eqn:E; [|exact I].
  assert (F : fixed_text k = Some z) by (destruct k; try discriminate E; exact E).
  specialize (T z F). now inversion T.
Qed.

(** The parser, as its loops are written, on the tree with names. *)
Lemma comes_once {A} (f : nat -> res A) r r' : comes_to f r -> comes_to f r' -> r = r'.
Proof.
  intros [n H] [m H']. rewrite <- (H (n + m)) by lia. apply H'. lia.
Qed.

Lemma parse_tree_result src b t r :
  comes_to (fun n => parse_tree n src b t) (Ok r) -> parse src b (conv t) = Some r.
Proof.
  intros H. pose proof (comes_once _ _ _ H (parse_tree_parses src b t)) as E.
  destruct (parse src b (conv t)); inversion E; reflexivity.
Qed.

Lemma lossless src t : well_parsed src (conv t) ->
  exists g, comes_to (fun n => parse_tree n src false t) (Ok (g, false)) /\ tree_text g = src.
Proof.
  intros W. destruct (parse_lossless_holds src (conv t) W) as (g & P & T). exists g. split; [|exact T].
  pose proof (parse_tree_parses src false t) as H. now rewrite P in H.
Qed.

Lemma own_ranges_kinds pos ps p x : forall i,
  nth_error ps i = Some p -> nth_error (own_ranges pos ps) i = Some x -> fst (fst x) = p_kind p.
Proof.
  revert pos. induction ps as [|q ps IH]; intros pos [|i]; cbn; try discriminate.
  - intros [= ->] [= <-]. reflexivity.
  - apply IH.
Qed.

Lemma tokens_named src t g : well_parsed src (conv t) -> called src t ->
  comes_to (fun n => parse_tree n src false t) (Ok (g, false)) ->
  exists ps, map take_apart (tokens g) = map Some ps /\ flat_map parts_text ps = src /\
  Forall (fun p => match fixed_text (p_kind p) with
                   | Some x => p_own p = x
                   | None => In (p_kind p) varying
                   end) ps.
Proof.
  intros W C H. apply parse_tree_result in H.
  destruct (tokens_and_trivia_holds src (conv t) g W H) as (ps & E1 & E2 & E3 & E4 & _).
  exists ps. split; [exact E1|]. split; [exact E2|].
  apply Forall_forall. intros p Ip. apply In_nth_error in Ip. destruct Ip as [i Ip].
  assert (X : exists x, nth_error (own_ranges 0 ps) i = Some x /\ slice (snd (fst x)) (snd x) src = Some (p_own p)).
  { clear -E4 Ip. revert i Ip. induction E4 as [|q x l l' R _ IH]; intros [|i] Ip; cbn in *; try discriminate.
    - inversion Ip; subst. now exists x.
    - now apply IH. }
  destruct X as (x & Ix & Sx). pose proof (own_ranges_kinds 0 ps p x i Ip Ix) as K.
  apply nth_error_In in Ix. rewrite E3 in Ix. apply in_app_or in Ix.
  destruct x as [[k s] e]. cbn [fst snd] in *. subst k.
  destruct Ix as [Ix|[Ix|[]]].
  - unfold token_leaves in Ix. apply in_flat_map in Ix. destruct Ix as ([k s' e'|s' e'] & L & Ix); [|destruct Ix].
    destruct Ix as [Ix|[]]. injection Ix as -> -> ->.
    destruct (leaf_text src t _ _ _ C L) as [T V].
    destruct (fixed_text (p_kind p)) as [y|]; [|now apply V].
    specialize (T y eq_refl). rewrite Sx in T. now inversion T.
  - inversion Ix. replace (p_kind p) with EOF by congruence. cbn. tauto.
Qed.

(** The kind is known from the text. *)
Definition kind_for (x : text) : option kind :=
  match find (fun e => match named_text (fst e) with Some y => text_eqb y x | None => false end) node_kinds with
  | Some (_, k) => match class_of k with C_value lit => Some lit | _ => Some k end
  | None => None
  end.

Lemma fixed_kind k x : fixed_text k = Some x -> kind_for x = Some k.
Proof. destruct k; intros E; try discriminate E; inversion E; subst; vm_compute; reflexivity. Qed.

Lemma fixed_text_injective k k' x : fixed_text k = Some x -> fixed_text k' = Some x -> k = k'.
Proof. intros A B. apply fixed_kind in A, B. congruence. Qed.

(** All such tokens, and all rules that the parser meets, are known. *)
Lemma every_text_known k x f s e : fixed_text k = Some x ->
  leaves (conv (NTS (node_name x) f s e [])) = [LTok k s e].
Proof. destruct k; intros E; try discriminate E; inversion E; subst; vm_compute; reflexivity. Qed.

Lemma every_rule_known name : In name (map fst rules) ->
  name <> $"arguments" -> name <> $"escape_sequence" -> node_syntax_kind name <> None.
Proof.
  cbn [map fst rules]. intros H A B.
  repeat (destruct H as [<-|H];
    [first [now contradiction A|now contradiction B|vm_compute; discriminate]|]).
  destruct H.
Qed.
