(** The grammar of directive comments. *)
From Coq Require Import List NArith Bool String.
From Verif Require Import Text DirectiveModel.
Import ListNotations.

(** The blanks of Unicode's White_Space property. *)
Definition blanks : list N :=
  [9; 10; 11; 12; 13; 32; 133; 160; 5760; 8192; 8193; 8194; 8195; 8196; 8197; 8198; 8199; 8200; 8201; 8202;
   8232; 8233; 8239; 8287; 12288]%N.
Definition blank (w : text) : Prop := forall c, In c w -> In c blanks.

Definition hashes (h : text) : Prop := h <> [] /\ forall c, In c h -> c = 35%N.

Definition command (d : directive) : text :=
  match d with DSkip => $"skip" | DSkipFile => $"skip file" | DTable => $"table" end.

(** [#]s, blanks, [fmt:], blanks, the command, blanks. *)
Definition is_directive (t : text) (d : directive) : Prop :=
  exists h w1 w2 w3, hashes h /\ blank w1 /\ blank w2 /\ blank w3 /\
    t = h ++ w1 ++ $"fmt:" ++ w2 ++ command d ++ w3.

(** [#]s, blanks, [Generated by], anything. *)
Definition is_generated (t : text) : Prop :=
  exists h w rest, hashes h /\ blank w /\ t = h ++ w ++ $"Generated by" ++ rest.
