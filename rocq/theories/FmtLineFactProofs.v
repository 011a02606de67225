(** Source and output read alike (C39). *)
From Coq Require Import List Arith Bool NArith Lia.
From Verif Require Import Text SettingsModel SyntaxKind DirectiveModel FmtTree IrModel
  FmtModel FmtSpec FmtLineSpec FmtTidyInd FmtFactProofs FmtLineRunProofs FmtLineProofs.
Import ListNotations.

Lemma unmarked_app x y : unmarked x -> unmarked y -> unmarked (x ++ y).
Proof. destruct x as [|[t []] x]; cbn; auto. Qed.
Lemma unmarked_inline t x : unmarked (inline t :: x).
Proof. exact I. Qed.
Lemma unmarked_lines e : unmarked (lines e).
Proof.
  induction e as [n k ts|n op a IH|n l op r IHl IHr|n l op r IHl IHr|n l op r IHl IHr
    |n name ps b IHp IHb|n items IH|n a d IHa IHd|n v IH|n c t el IHc IHt IHe|n nl a IH
    |n v s b IHv IHs IHb|n c b IHc IHb|n b IH|n es IH|n b IH|n f args IHf IHa|n k rc items IH
    |n nm v sl IHn IHv|n nm IH] using expr_ind'; cbn [lines]; try exact I;
    try (apply unmarked_app; try assumption; try exact I).
  - destruct ts; exact I.
  - destruct d as [d|]; [exact IHd|exact I].
  - destruct nm as [c|]; [exact IHn|exact I].
  - destruct v as [v|]; [exact IHv|exact I].
Qed.

Section Reread.
Variable o : format_options.
Let st := o_assignment_style o.

Lemma flag_flag a b l : flag a (flag b l) = flag (a || b) l.
Proof. destruct l as [|[t f] l]; [reflexivity|]. cbn [flag]. rewrite orb_assoc. reflexivity. Qed.
Lemma reread_nil x x' : reread st x x' -> x = [] <-> x' = [].
Proof.
  induction 1; split; intros E; try discriminate; try reflexivity.
  - destruct x as [|[t f] x]; [contradiction|discriminate].
  - apply app_eq_nil in E. destruct E as [E1 E2]. apply IHreread1 in E1. apply IHreread2 in E2.
    subst. reflexivity.
  - apply app_eq_nil in E. destruct E as [E1 E2]. apply IHreread1 in E1. apply IHreread2 in E2.
    subst. reflexivity.
Qed.
Lemma reread_flag c x x' : reread st x x' -> reread st (flag c x) (flag c x').
Proof.
  induction 1; cbn [flag].
  - constructor.
  - apply RR_keep; assumption.
  - apply RR_arrow; assumption.
  - apply RR_equal; assumption.
  - rewrite flag_flag. apply RR_braces; assumption.
  - pose proof (reread_nil _ _ H) as N. destruct x as [|p x].
    + destruct N as [N _]. rewrite (N eq_refl). exact IHreread2.
    + destruct x' as [|p' x']; [destruct N as [_ N]; discriminate (N eq_refl)|].
      rewrite !flag_app by discriminate. apply RR_app; assumption.
Qed.

Lemma reread_cons p p' x x' :
  reread st [p] [p'] -> reread st x x' -> reread st (p :: x) (p' :: x').
Proof. intros A B. exact (RR_app st [p] [p'] x x' A B). Qed.
Lemma reread_fixed t x x' : reread st x x' -> reread st (inline t :: x) (inline t :: x').
Proof. apply reread_cons, RR_keep. left. reflexivity. Qed.
Lemma reread_same t t' x x' :
  same_token t t' -> reread st x x' -> reread st (inline t :: x) (inline t' :: x').
Proof. intros S. apply reread_cons, RR_keep. right. exact S. Qed.
Lemma reread_snoc t x x' : reread st x x' -> reread st (x ++ [inline t]) (x' ++ [inline t]).
Proof. intros H. apply RR_app; [exact H|apply RR_keep; left; reflexivity]. Qed.
Lemma reread_refl x : reread st x x.
Proof.
  induction x as [|[t b] x IH]; [constructor|]. apply reread_cons; [|exact IH].
  apply RR_keep. left. reflexivity.
Qed.
Lemma reread_statements ls ls' :
  Forall2 (reread st) ls ls' -> reread st (statements ls) (statements ls').
Proof.
  intros [|x y l l' H F]; [constructor|]. cbn [statements]. apply RR_app; [exact H|].
  induction F; cbn [map concat]; [constructor|]. apply RR_app; [|exact IHF].
  apply reread_flag; assumption.
Qed.
Lemma reread_commas ls ls' :
  Forall2 (reread st) ls ls' -> reread st (listed_by_commas ls) (listed_by_commas ls').
Proof.
  induction 1 as [|x y l l' H F IH]; [constructor|]. cbn [listed_by_commas].
  destruct F as [|x2 y2 l l' H2 F]; [exact H|].
  apply RR_app; [exact H|]. apply reread_fixed; exact IH.
Qed.
Lemma reread_restyled eq op op' : restyled st eq op op' -> reread st [inline op] [inline op'].
Proof.
  unfold restyled. intros H.
  destruct st eqn:Es, (t_kind op) eqn:Ek, eq; try (apply RR_keep; right; exact H);
    subst op'; rewrite <- ?Es in *; (apply RR_arrow; [congruence|exact Ek]) ||
    (apply RR_equal; [congruence|exact Ek]).
Qed.

Definition Rd (e e' : expr) : Prop := shaped e -> reread st (lines e) (lines e').
Definition RdB (e e' : expr) : Prop := sort_of e = SoExpr -> Rd e e'.

Lemma Rd_all s l l' :
  Forall2 Rd l l' -> all_of (fun x => sort_of x = s /\ shaped x) l ->
  Forall2 (reread st) (map lines l) (map lines l').
Proof.
  induction 1 as [|x y l l' H F IH]; intros A; constructor; destruct A as [[A1 A2] A3]; auto.
Qed.
Lemma Rd_opt s x x' :
  opt_rel Rd x x' -> opt_all (fun x => sort_of x = s /\ shaped x) x ->
  reread st (opt_list lines x) (opt_list lines x').
Proof. intros [|a b H] A; [constructor|]. cbn [opt_list]. apply H, A. Qed.

Lemma tidy_Rd p e e' : tidy o p e e' -> Rd e e'.
Proof.
  revert p e e'.
  apply (tidy_ind' o (fun _ => Rd) (fun _ => Rd)
    (fun _ el el' => opt_all (fun x => sort_of x = SoElse /\ shaped x) el ->
       reread st (opt_list lines el) (opt_list lines el')) (fun _ => RdB));
    unfold RdB, Rd; cbn [lines shaped]; intros; fold Rd in *.
  - apply reread_refl.
  - clear H0. induction H; [constructor|]. apply reread_same; assumption.
  - apply reread_same; [assumption|]. apply H0, H1.
  - destruct H5 as [[_ S1] [_ S2]]. apply RR_app; [auto|].
    apply reread_cons; [eapply reread_restyled; exact H|]. auto.
  - destruct H2 as [[_ S1] [_ S2]]. apply RR_app; [auto|]. apply reread_same; auto.
  - destruct H2 as [[_ S1] [_ S2]]. apply RR_app; [auto|]. apply reread_same; auto.
  - destruct H3 as [[_ S1] [S2 S3]]. apply reread_same; [assumption|]. apply RR_app; auto.
  - apply reread_fixed, reread_snoc, reread_commas, (Rd_all SoParam); assumption.
  - destruct H1 as [[_ S1] S2]. apply RR_app; [auto|]. exact (Rd_opt SoDefault _ _ H0 S2).
  - destruct H0 as [_ S1]. apply reread_fixed. auto.
  - auto.
  - destruct H2 as [[_ S1] [[_ S2] [S3 S4]]]. do 2 apply reread_fixed.
    apply RR_app; [auto|]. apply reread_fixed. apply RR_app; [auto|]. apply reread_fixed. auto.
  - destruct H1 as [[_ S1] [S3 S4]]. do 2 apply reread_fixed.
    apply RR_app; [auto|]. apply reread_fixed. auto.
  - destruct H0 as [S1 S2]. apply reread_fixed. auto.
  - apply reread_fixed, reread_snoc, reread_statements.
    induction H as [|a b l l' H F IH]; [constructor|].
    destruct H0 as [[_ S1] S2]. cbn [map]. constructor; auto.
  - destruct H0 as [_ S1]. apply reread_fixed, reread_snoc. auto.
  - destruct H2 as [[_ S1] [_ S2]]. apply RR_app; auto.
  - apply reread_fixed, reread_snoc, reread_commas, (Rd_all SoArg); assumption.
  - apply reread_refl.
  - destruct H1 as [S1 S2].
    apply RR_app; [exact (Rd_opt SoName _ _ H S1)|exact (Rd_opt SoExpr _ _ H0 S2)].
  - destruct H0 as [_ S1]. apply reread_snoc. auto.
  - destruct H3 as [[_ S1] [[S2 S3] S4]]. do 2 apply reread_fixed.
    apply RR_app; [auto|]. apply reread_fixed. apply RR_app; auto.
  - constructor.
  - destruct H1 as [_ [_ S1]]. apply reread_fixed. auto.
  - destruct H1 as [_ [S0 S1]]. apply reread_fixed. auto.
  - auto.
  - cbn [lines add_braces map statements concat]. rewrite app_nil_r.
    rewrite <- (flag_false (lines b)).
    apply RR_braces; [apply lines_nonempty; assumption|apply unmarked_lines|]. auto.
  - auto.
Qed.

Lemma marks_app x y : marks (x ++ y) = marks x + marks y.
Proof. unfold marks. rewrite filter_app, app_length. reflexivity. Qed.
Lemma marks_flag b x : x <> [] -> unmarked x -> marks (flag b x) = (if b then 1 else 0) + marks x.
Proof. destruct x as [|[t []] x]; intros N U; try contradiction. destruct b; reflexivity. Qed.
Lemma reread_marks x x' : reread st x x' -> marks x' = marks x.
Proof.
  induction 1.
  - reflexivity.
  - destruct b; reflexivity.
  - destruct b; reflexivity.
  - destruct b; reflexivity.
  - rewrite marks_flag by assumption. change ((tLCURLY, b) :: x' ++ [inline tRCURLY])
      with ([(tLCURLY, b)] ++ x' ++ [inline tRCURLY]).
    rewrite !marks_app, IHreread. destruct b; cbn; lia.
  - rewrite !marks_app. congruence.
Qed.
End Reread.

Lemma program_reread o es es' :
  Forall2 (tidy o (p_stmt true)) es es' ->
  all_of (fun x => sort_of x = SoExpr /\ shaped x) es ->
  reread (o_assignment_style o) (program es) (program es').
Proof.
  intros F Sh. apply reread_statements.
  induction F as [|x y l l' T F IH]; [constructor|]. destruct Sh as [[_ S] Sh]. cbn [map].
  constructor; [exact (tidy_Rd o _ _ _ T S)|exact (IH Sh)].
Qed.
