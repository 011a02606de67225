(** Vocabulary for C39 from text to text. *)
From Coq Require Import List.
From Verif Require Import Text RReadSpec GrammarSpec.

(** R reads the text as this program: its lexer finds the tokens and the ends
    of expressions, its grammar builds the trees. *)
Definition r_program (s : text) (l : list term) : Prop :=
  exists m, tokens_of s = Some m /\ parses m l.
