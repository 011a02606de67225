(** Model of document synchronisation:
    crates/aether_lsp_utils/src/proto/from_proto.rs:81-165,
    crates/lsp/src/documents.rs:45-127 and the document handlers of
    crates/lsp/src/handlers_state.rs:133-185. *)
From Coq Require Import List NArith ZArith Bool Arith.
From Verif Require Import Text LineEndingModel LineIndexModel.
Import ListNotations.

(** [String::replace_range]: panics ([None]) off character boundaries or out of bounds. *)
Definition replace_range (t : text) (s e : nat) (ins : text) : option text :=
  match split_at s t with
  | None => None
  | Some (a, r) =>
    match split_at (e - s) r with
    | None => None
    | Some (_, b) => Some (a ++ ins ++ b)
    end
  end.

(** [lsp_types::TextDocumentContentChangeEvent] ([range_length] is never read). *)
Record change := { c_range : option lsp_range; c_text : text }.

(** from_proto.rs:104-124, the loop; [None] is a panic.  [last] is
    [last_start_line], [None] standing for [u32::MAX]. *)
Fixpoint apply_incremental (enc : encoding) (changes : list change)
    (t : text) (li : line_index) (last : option nat) : option (text * line_index) :=
  match changes with
  | [] => Some (t, li)
  | c :: rest =>
    match c_range c with
    | None => None
    | Some r =>
      let stale := match last with
                   | None => false
                   | Some l => l <=? pos_line (r_end r)
                   end in
      let li := if stale then line_index_new t else li in
      match text_range enc li r with
      | Val (s, e) =>
        match replace_range t s e (normalize (c_text c)) with
        | None => None
        | Some t' => apply_incremental enc rest t' li (Some (pos_line (r_start r)))
        end
      | _ => None
      end
    end
  end.

(** [Iterator::rposition] on a slice: index of the last element satisfying [f]. *)
Fixpoint rposition {A} (f : A -> bool) (l : list A) : option nat :=
  match l with
  | [] => None
  | x :: r =>
    match rposition f r with
    | Some i => Some (S i)
    | None => if f x then Some 0 else None
    end
  end.

Definition is_full (c : change) : bool := match c_range c with None => true | Some _ => false end.

(** from_proto.rs:81-125, [apply_text_changes]. *)
Definition apply_text_changes (enc : encoding) (t : text) (changes : list change)
    (li : line_index) : option (text * line_index) :=
  match rposition is_full changes with
  | Some idx =>
    let incremental := skipn (idx + 1) changes in
    match nth_error changes idx with
    | None => None
    | Some full => apply_incremental enc incremental (normalize (c_text full)) li (Some 0)
    end
  | None => apply_incremental enc changes t li None
  end.

Section Docs.
  Variable T : Type.                 (* syntax trees *)
  Variable parse : text -> T.        (* [air_r_parser::parse] with default options *)

  (** documents.rs:9-35, [Document] (the settings field is in the configuration model). *)
  Record document := {
    d_contents : text;
    d_line_index : line_index;
    d_endings : line_ending;
    d_enc : encoding;
    d_parse : T;
    d_version : option Z
  }.

  (** documents.rs:46-79, [Document::new]. *)
  Definition document_new (contents : text) (version : option Z) (enc : encoding) : document :=
    let endings := infer contents in
    let contents := match endings with Lf => contents | Crlf => normalize contents end in
    {| d_contents := contents; d_line_index := line_index_new contents;
       d_endings := endings; d_enc := enc; d_parse := parse contents; d_version := version |}.

  (** documents.rs:98-127, [on_did_change]; [None] is a panic. *)
  Definition on_did_change (d : document) (changes : list change) (new_version : Z) : option document :=
    let out_of_sync := match d_version d with Some old => (new_version <? old)%Z | None => false end in
    if out_of_sync then None
    else
      match apply_text_changes (d_enc d) (d_contents d) changes (d_line_index d) with
      | None => None
      | Some (contents, _) =>
        Some {| d_contents := contents; d_line_index := line_index_new contents;
                d_endings := d_endings d; d_enc := d_enc d;
                d_parse := parse contents; d_version := Some new_version |}
      end.

  (** Documents by URI ([HashMap<Url, Document>], state.rs:14). *)
  Definition documents := text -> option document.
  Definition docs_set (m : documents) (u : text) (d : option document) : documents :=
    fun v => if text_eqb v u then d else m v.

  (** The three notifications of handlers_state.rs:133-185. *)
  Inductive doc_event :=
  | EvOpen (uri : text) (version : Z) (contents : text)
  | EvChange (uri : text) (version : Z) (changes : list change)
  | EvClose (uri : text).

  (** One notification: new documents and whether the handler succeeded; [None] is a
      panic of the server.  A failing handler is only logged (main_loop.rs). *)
  Definition doc_step (enc : encoding) (m : documents) (ev : doc_event) : option (documents * bool) :=
    match ev with
    | EvOpen u v t => Some (docs_set m u (Some (document_new t (Some v) enc)), true)
    | EvChange u v cs =>
      match m u with
      | None => Some (m, false)
      | Some d =>
        match on_did_change d cs v with
        | None => None
        | Some d' => Some (docs_set m u (Some d'), true)
        end
      end
    | EvClose u =>
      match m u with
      | None => Some (m, false)
      | Some _ => Some (docs_set m u None, true)
      end
    end.

  Fixpoint doc_run (enc : encoding) (m : documents) (h : list doc_event) : option documents :=
    match h with
    | [] => Some m
    | ev :: r =>
      match doc_step enc m ev with
      | None => None
      | Some (m', _) => doc_run enc m' r
      end
    end.
End Docs.
Arguments d_contents {T}. Arguments d_line_index {T}. Arguments d_endings {T}. Arguments d_enc {T}.
Arguments d_parse {T}. Arguments d_version {T}.
