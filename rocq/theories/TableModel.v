(** Model of crates/air_r_formatter/src/call_arguments_table.rs. *)
From Coq Require Import List Arith Bool NArith String.
From Verif Require Import Text SyntaxKind FmtTree IrModel.
Import ListNotations.

(** call_arguments_table.rs:11. *)
Definition DOT_WIDTH : nat := 1.

(** call_arguments_table.rs:28-37, [ArgKind].  The text of [Other] is kept as
    printed pieces. *)
Inductive arg_kind :=
| Numeric (integer_width : nat) (fractional_width : option nat)
| Other (ps : list piece).

(** call_arguments_table.rs:39-48, [ColumnInfo]. *)
Record column := {
  has_decimal : bool;
  max_width : nat;
  max_value_width : nat;
  max_integer_part : nat;
  max_fractional_part : nat
}.
Definition column_default : column :=
  {| has_decimal := false; max_width := 0; max_value_width := 0;
     max_integer_part := 0; max_fractional_part := 0 |}.

(** Number of characters a piece shows. *)
Definition word_width (w : word) : nat :=
  match w with
  | WTok t => List.length (t_text t)
  | WComment c => List.length c
  | WPad n => n
  | WVerb e => List.length (n_src (notes_of e))
  | WBreak => 1
  end.
Definition piece_width (p : piece) : nat :=
  match p with PWord w => word_width w | PSpace => 1 | PNewline => 1 end.
Definition pieces_width (ps : list piece) : nat := list_sum (map piece_width ps).

(** call_arguments_table.rs:485-502, [ArgKind::width]. *)
Definition kind_width (k : arg_kind) : nat :=
  match k with
  | Numeric iw (Some fw) => iw + DOT_WIDTH + fw
  | Numeric iw None => iw
  | Other ps => pieces_width ps
  end.

(** call_arguments_table.rs:315-323, [simple_padding]. *)
Definition simple_padding (c : column) (k : arg_kind) : nat * nat :=
  let padding := max_value_width c - kind_width k in
  match k with
  | Numeric _ _ => (padding, 0)
  | Other _ => (0, padding)
  end.

(** call_arguments_table.rs:325-364, [decimal_padding]. *)
Definition decimal_padding (c : column) (k : arg_kind) : nat * nat :=
  let max_decimal_width := max_integer_part c + DOT_WIDTH + max_fractional_part c in
  let target_width := Nat.max (max_value_width c) max_decimal_width in
  match k with
  | Numeric iw fw =>
    let left := max_integer_part c - iw in
    let right := match fw with
                 | Some frac => max_fractional_part c - frac
                 | None => DOT_WIDTH + max_fractional_part c
                 end in
    let extra := target_width - max_decimal_width in
    (left, right + extra)
  | Other _ => (0, target_width - kind_width k)
  end.

(** call_arguments_table.rs:307-313, [padding]. *)
Definition padding (c : column) (k : arg_kind) : nat * nat :=
  if has_decimal c then decimal_padding c k else simple_padding c k.

(** call_arguments_table.rs:84-89: no padding in a column of holes. *)
Definition cell_padding (c : column) (k : arg_kind) : nat * nat :=
  if 0 <? max_width c then padding c k else (0, 0).

(** call_arguments_table.rs:267-283: one column's information updated with
    one cell. *)
Definition update_column (c : column) (k : arg_kind) : column :=
  let w := kind_width k in
  let mi := match k with
            | Numeric iw _ => Nat.max (max_integer_part c) iw
            | Other _ => max_integer_part c
            end in
  let '(hd, mf) :=
    match k with
    | Numeric _ (Some fw) => (true, Nat.max (max_fractional_part c) fw)
    | _ => (has_decimal c, max_fractional_part c)
    end in
  {| has_decimal := hd;
     max_width := Nat.max (max_width c) w;
     max_value_width := Nat.max (max_value_width c) w;
     max_integer_part := mi;
     max_fractional_part := mf |}.

(** call_arguments_table.rs:248-255 and 267: column [j] updated, the columns
    grown as needed. *)
Fixpoint update_columns (cols : list column) (j : nat) (k : arg_kind) : list column :=
  match j, cols with
  | 0, [] => [update_column column_default k]
  | 0, c :: r => update_column c k :: r
  | S j', [] => column_default :: update_columns [] j' k
  | S j', c :: r => c :: update_columns r j' k
  end.

(** Numbers of a literal: call_arguments_table.rs:425-449. *)
Definition integer_kind (t : text) : arg_kind := Numeric (blen t - 1) (Some 0).
Fixpoint find_dot (t : text) : option nat :=
  match t with
  | [] => None
  | c :: r =>
    if (c =? 46)%N then Some 0
    else match find_dot r with None => None | Some n => Some (utf8_len c + n) end
  end.
Definition decimal_kind (t : text) : arg_kind :=
  match find_dot t with
  | Some pos => Numeric pos (Some (blen t - pos - DOT_WIDTH))
  | None => Numeric (blen t) None
  end.

(** A literal number and its kind. *)
Definition literal_kind (e : expr) : option arg_kind :=
  match e with
  | ELeaf _ k [t] =>
    if kind_eqb k R_INTEGER_VALUE then Some (integer_kind (t_text t))
    else if kind_eqb k R_DOUBLE_VALUE then Some (decimal_kind (t_text t))
    else None
  | _ => None
  end.

(** call_arguments_table.rs:369-423, [ArgKind::parse] and [parse_unary];
    [other] is what [parse_other] answers. *)
Definition parse_kind (v : option expr) (other : option (list piece)) : option arg_kind :=
  let parse_other := match other with None => None | Some ps => Some (Other ps) end in
  match v with
  | Some (EUnary _ op a) =>
    if text_eqb (t_text op) $"+" || text_eqb (t_text op) $"-" then
      match literal_kind a with
      | Some (Numeric iw fw) => Some (Numeric (iw + 1) fw)
      | _ => parse_other
      end
    else parse_other
  | Some e => match literal_kind e with Some k => Some k | None => parse_other end
  | None => parse_other
  end.

(** Lines before an argument, or before the separator for a hole:
    call_arguments_table.rs:234-239.  [sep]: a separator follows. *)
Definition cell_lines (a : expr) (sep : bool) : nat :=
  match a with
  | EArg n _ (Some _) _ => n_lines n
  | EArg _ _ None sl => if sep then sl else 0
  | _ => 0
  end.

Definition arg_named (a : expr) : bool :=
  match a with EArg _ (Some _) _ _ => true | _ => false end.
Definition arg_value (a : expr) : option expr :=
  match a with EArg _ _ v _ => v | _ => None end.

Section Table.
  (** What the table knows of an argument besides the node: [A] carries it. *)
  Variable A : Type.
  Variable node : A -> expr.
  (** [parse_other]: the printed cell, or [None] if it has a line break. *)
  Variable other : A -> option (list piece).

  (** call_arguments_table.rs:20-26, [ArgData]. *)
  Record cell := { ce_arg : A; ce_kind : arg_kind; ce_sep : bool }.

  (** call_arguments_table.rs:13-18, [TableInfo]. *)
  Record table := {
    rows : list (list cell);
    cols : list column;
    remaining : list (A * bool)
  }.

  (** call_arguments_table.rs:208-303, the loop over the arguments, each with
      whether a separator follows it (all but the last). *)
  Fixpoint build_loop (rs : list (list cell)) (row : list cell) (cs : list column)
      (args : list (A * bool)) : option table :=
    match args with
    | [] =>
      Some {| rows := if (List.length row =? 0) then rs else rs ++ [row];
              cols := cs; remaining := [] |}
    | (a, sep) :: rest =>
      if arg_named (node a) then
        Some {| rows := if (List.length row =? 0) then rs else rs ++ [row];
                cols := cs; remaining := args |}
      else
        let new_row := (0 <? cell_lines (node a) sep) && negb (List.length row =? 0) in
        let rs := if new_row then rs ++ [row] else rs in
        let row := if new_row then [] else row in
        match parse_kind (arg_value (node a)) (other a) with
        | None => None
        | Some k =>
          build_loop rs (row ++ [{| ce_arg := a; ce_kind := k; ce_sep := sep |}])
            (update_columns cs (List.length row) k) rest
        end
    end.

  (** call_arguments_table.rs:193-206, [build_table]. *)
  Definition build_table (args : list (A * bool)) : option table := build_loop [] [] [] args.

  (** * Writing: call_arguments_table.rs:67-188 *)
  (** Leading comments, trailing comments and the whole formatted argument. *)
  Variable lead trail full : A -> doc.
  Variable comma : doc.

  (** call_arguments_table.rs:506-511, [write_spaces]. *)
  Definition write_spaces (n : nat) : doc := if 0 <? n then DWord (WPad n) else DNil.

  (** [dynamic_text(text)] of the printed cell: its words, with its spaces as
      incompressible text. *)
  Definition raw_pieces (ps : list piece) : doc :=
    cat (map (fun p => match p with
                       | PWord w => DWord w
                       | PSpace => DWord (WPad 1)
                       | PNewline => DWord WBreak
                       end) ps).

  (** call_arguments_table.rs:84-140: one cell. *)
  Definition write_cell (cs : list column) (j : nat) (c : cell) : doc :=
    let '(left_pad, right_pad) := cell_padding (nth j cs column_default) (ce_kind c) in
    cat [ write_spaces left_pad;
          match ce_kind c with
          | Other ps => cat [lead (ce_arg c); raw_pieces ps; trail (ce_arg c)]
          | Numeric _ _ => full (ce_arg c)
          end;
          (if ce_sep c then write_spaces right_pad else DNil);
          (if ce_sep c then cat [DSpace; comma] else DNil);
          DSpace ].

  Fixpoint write_cells (cs : list column) (j : nat) (row : list cell) : doc :=
    match row with
    | [] => DNil
    | c :: r => DCat (write_cell cs j c) (write_cells cs (S j) r)
    end.

  (** call_arguments_table.rs:70-82: rows, separated by a line break or an
      empty line. *)
  Definition row_break (row : list cell) : doc :=
    match row with
    | [] => DNil
    | c :: _ => DLine (if n_lines (notes_of (node (ce_arg c))) <=? 1 then LHard else LEmpty)
    end.
  Fixpoint write_rows (cs : list column) (first : bool) (rs : list (list cell)) : doc :=
    match rs with
    | [] => DNil
    | row :: r =>
      cat [ (if first then DNil else row_break row); write_cells cs 0 row; write_rows cs false r ]
    end.

  (** call_arguments_table.rs:148-175: arguments from the first named one on. *)
  Definition write_remaining (l : list (A * bool)) : doc :=
    match l with
    | [] => DNil
    | _ =>
      DCat (DLine LHard)
        (cat (map (fun '(a, sep) =>
                cat [ DLine (if n_lines (notes_of (node a)) <=? 1 then LSoftOrSpace else LEmpty);
                      full a; (if (sep : bool) then comma else DNil) ]) l))
    end.

  (** call_arguments_table.rs:177-186. *)
  Definition write_table (l r : doc) (t : table) : doc :=
    group true
      (cat [ l;
             soft_block_indent (DCat (write_rows (cols t) true (rows t))
                                     (write_remaining (remaining t)));
             r ]).
End Table.
