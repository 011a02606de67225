(** The program after several runs; all layouts of a document. *)
From Coq Require Import List NArith Bool Arith Lia String.
From Verif Require Import Text LineEndingModel SettingsModel SyntaxKind DirectiveModel ParseModel
  ParseSpec FmtTree IrModel TableModel FmtModel FmtSpec FmtLayout FrontProofs FactorySpec CommentsModel CommentsSpec AstModel LexSpec LexSourceSpec
  RReadSpec FmtLineSpec RTextSpec GrammarSpec GrammarProofs GrammarSoundProofs RProgramSpec RProgramProofs RKeptProofs TwiceSpec.
Import ListNotations.

Lemma run_keeps o s s' l : run_once o s s' -> r_program s l ->
  exists l', r_program s' l' /\ same_program (o_assignment_style o) l l'.
Proof.
  intros (rf & t & r & pc & out & W & C & S & R & E & T & K & A & P & PC & PR & RE) P'.
  assert (L : l = map term_of (r_exprs r)).
  { destruct P as (m & M & P), P' as (m' & M' & P'). rewrite M in M'. injection M' as <-.
    exact (parses_once _ _ _ P' P). }
  subst l. exact (source_kept rf s t r o pc out s' W C S R E T K A P PC PR RE).
Qed.

Lemma runs_keep o s s' l : run_often o s s' -> r_program s l ->
  exists l', r_program s' l' /\ same_program (o_assignment_style o) l l'.
Proof.
  intros R. revert l. induction R as [s|s s1 s2 H _ IH]; intros l P.
  - exists l. split; [exact P|reflexivity].
  - destruct (run_keeps o s s1 l H P) as (l1 & P1 & E1). destruct (IH l1 P1) as (l2 & P2 & E2).
    exists l2. split; [exact P2|]. unfold same_program in *. congruence.
Qed.

(** Every layout of a document. *)
Fixpoint layouts (m : mode) (d : doc) : list (list op) :=
  match d with
  | DNil | DExpandParent => [[]]
  | DCat a b => flat_map (fun x => map (app x) (layouts m b)) (layouts m a)
  | DWord w => [[OStep (SWord w)]]
  | DSpace => [[OStep SSpace]]
  | DLine LHard => [[OStep (SLine false)]]
  | DLine LEmpty => [[OStep (SLine true)]]
  | DLine LSoft => [match m with Flat => [] | Expanded => [OStep (SLine false)] end]
  | DLine LSoftOrSpace => [match m with Flat => [OStep SSpace] | Expanded => [OStep (SLine false)] end]
  | DIndent d => layouts m d
  | DGroup true d => layouts Expanded d
  | DGroup false d => layouts Flat d ++ layouts Expanded d
  | DIfBreaks d => match m with Flat => [[]] | Expanded => layouts Expanded d end
  | DSuffix g c => [[OSuffix g c]]
  | DBest a b => (layouts Flat a ++ layouts Expanded a) ++ layouts Flat b ++ layouts Expanded b
  | DPanic => []
  end.

Lemma layouts_all d : forall m os, lay m d os -> In os (layouts m d).
Proof.
  induction d; intros m0 os H; cbn [lay layouts] in *;
    try (subst; now left).
  all: try (now apply IHd).
  - destruct H as (x & y & Hx & Hy & ->). apply in_flat_map. exists x. split; [now apply IHd1|].
    apply in_map_iff. exists y. split; [reflexivity|now apply IHd2].
  - destruct m; subst; now left.
  - destruct expand; [now apply IHd|]. destruct H as [[] H]; apply in_or_app; [left|right]; now apply IHd.
  - destruct m0; [subst; now left|now apply IHd].
  - destruct H as [[] [H|H]]; rewrite !in_app_iff.
    + left; left; now apply IHd1.
    + right; left; now apply IHd2.
    + left; right; now apply IHd1.
    + right; right; now apply IHd2.
  - destruct H.
Qed.

Lemma no_layout d x :
  forallb (fun os => negb (text_eqb (ptext (run os)) x)) (layouts Expanded d) = true ->
  forall out, prints d out -> ptext out <> x.
Proof.
  intros H out (os & L & ->) E. rewrite forallb_forall in H. specialize (H os (layouts_all _ _ _ L)).
  rewrite E in H. rewrite TextFacts.text_eqb_refl in H. discriminate.
Qed.
