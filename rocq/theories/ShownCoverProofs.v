(** Every node of the file is laid out, or copied with another one. *)
From Coq Require Import List Arith Bool NArith Lia.
From Verif Require Import Text SettingsModel SyntaxKind DirectiveModel FmtTree IrModel TableModel
  FmtModel FmtSpec FmtPathSpec FmtProofs FmtListProofs FmtTidyProofs FmtPathProofs SourceSpec SourceNodeProofs
  BesideSpec ShownSpec ShownProofs.
Import ListNotations.

Lemma nodes_under x g : forall N e g0, esize e < N -> In (g, x) (nodes g0 e) -> under e x.
Proof.
  induction N as [|N IH]; intros e g0 Sz I; [lia|].
  assert (K : forall c g1, In c (branches e) -> esize c < esize e -> In (g, x) (nodes g1 c) -> under e x).
  { intros c g1 Ic Sc J. apply (under_below e c x Ic). apply (IH c g1); [lia|exact J]. }
  assert (R : forall l sep g1, (forall c, In c l -> In c (branches e) /\ esize c < esize e) ->
    In (g, x) (row nodes sep g1 l) -> under e x).
  { intros l sep g1 H J. destruct (row_in _ _ _ _ _ J) as (a & c & b & -> & J').
    destruct (H c (in_elt c a b)) as [H1 H2]. exact (K c _ H1 H2 J'). }
  destruct e as [n k ts|n op a|n l op r|n l op r|n l op r|n name ps b|n items|n a d|n v|n c t el
    |n nl a|n v s b|n c b|n b|n es|n b|n f args|n k rc items|n nm v sl|n nm];
    cbn [nodes] in I; (destruct I as [E|I]; [injection E as -> ->; constructor|]);
    try (destruct I; fail);
    try (eapply R; [|exact I]; intros c0 Ic0; split; [exact Ic0|]; cbn [esize]; pose proof (esize_In _ _ Ic0); lia);
    repeat (apply in_app_or in I; destruct I as [I|I]);
    repeat match goal with H : In _ (match ?d with Some _ => _ | None => _ end) |- _ =>
      is_var d; destruct d; [|destruct H] end;
    (eapply K; [| |exact I]; [cbn [branches]; repeat (first [left; reflexivity|right])|cbn [esize]; lia]).
  all: apply in_or_app; right; left; reflexivity.
Qed.

Section Cover.
Variable o : format_options.
Variable pc : doc -> option (list piece).
Variable r : root.
Hypothesis Sh : root_shaped r.
Variable out : list piece.
Hypothesis P : prints (root_doc o pc r) out.

Lemma visited_on p e p' x p'' y : visited o p e p' x -> ~ skip_asked o p' x -> part o p' x p'' y -> visited o p e p'' y.
Proof.
  induction 1 as [|p e p1 x1 p2 x2 N H V IH]; intros Ns Pt.
  - eapply V_below; [exact Ns|exact Pt|constructor].
  - eapply V_below; [exact N|exact H|exact (IH Ns Pt)].
Qed.
Lemma in_file_on p x p' y : in_file o r p x -> ~ skip_asked o p x -> part o p x p' y -> in_file o r p' y.
Proof. intros (e & I & V) Ns Pt. exists e. split; [exact I|]. exact (visited_on _ _ _ _ _ _ V Ns Pt). Qed.

Lemma asked_dec d p n : asked d p n \/ ~ asked d p n.
Proof.
  pose (anc := if q_dir p then [FRootList] else [FParen] : list frame).
  assert (E : q_dir p = can_have_directive anc) by (unfold anc; destruct (q_dir p); reflexivity).
  pose proof (has_directive_asked d anc n p E) as H. destruct (has_directive d anc n); [left; apply H; reflexivity|].
  right. intros A. apply H in A. discriminate A.
Qed.
Lemma listed_dec names f : listed names f \/ ~ listed names f.
Proof.
  destruct names as [l|]; [|right; intros (? & ? & E & _); discriminate E].
  destruct (called_name f) as [name|] eqn:E.
  - destruct (in_dec (list_eq_dec N.eq_dec) name l) as [I|I].
    + left. exists l, name. split; [reflexivity|]. split; [apply called_name_calls, E|exact I].
    + right. intros (l' & name' & El & Ca & I'). injection El as <-. apply called_name_calls in Ca.
      rewrite E in Ca. injection Ca as <-. contradiction.
  - right. intros (l' & name' & El & Ca & I'). apply called_name_calls in Ca. congruence.
Qed.
Lemma skip_dec p e : skip_asked o p e \/ ~ skip_asked o p e.
Proof.
  destruct (asked_dec DSkip p (notes_of e)) as [A|A]; [left; left; exact A|].
  destruct e; try (right; intros [B|(? & ? & ? & E & _)]; [contradiction|discriminate E]).
  destruct (listed_dec (o_skip o) e1) as [L|L].
  - destruct e2; try (right; intros [B|(n1 & f1 & a1 & E & (? & ? & ? & ? & ? & E') & _)]; [contradiction|]; discriminate E').
    destruct k; try (right; intros [B|(n1 & f1 & a1 & E & (? & ? & ? & ? & ? & E') & _)]; [contradiction|]; discriminate E').
    left. right. exists n, e1, (EArgs n0 KCall rc items). split; [reflexivity|]. split; [repeat eexists|exact L].
  - right. intros [B|(n1 & f1 & a1 & E & _ & L')]; [contradiction|]. injection E as <- <- <-. contradiction.
Qed.
Lemma table_dec p n f : exists table : bool, table = true <-> table_asked o p n f.
Proof.
  unfold table_asked. destruct (q_table p); [exists true; tauto|].
  destruct (asked_dec DTable p n) as [A|A]; [exists true; tauto|].
  destruct (listed_dec (o_table o) f) as [L|L]; [exists true; tauto|]. exists false.
  split; [discriminate|]. intros [B|[B|B]]; [exact B|contradiction|contradiction].
Qed.
Lemma chain_dec e : chain_node e \/ ~ chain_node e.
Proof.
  destruct e; try (right; intros (? & ? & ? & ? & E & _); discriminate E).
  destruct (chain_op (t_kind op)) eqn:C; [left; repeat eexists; exact C|].
  right. intros (? & ? & ? & ? & E & C'). injection E as <- <- <- <-. congruence.
Qed.

(** Where a node may be. *)
Inductive placed_node : expr -> Prop :=
| PN_file p e : in_file o r p e -> placed_node e
| PN_arg p n k rc l x : in_file o r p (EArgs n k rc l) -> ~ skip_asked o p (EArgs n k rc l) ->
    ~ table_args p (EArgs n k rc l) -> In x l -> placed_node x
| PN_chain p n l op x p' y : in_file o r p (EBinary n l op x) -> ~ skip_asked o p (EBinary n l op x) ->
    chain_op (t_kind op) = true -> inner_chain (p_operand (q_eq p) op false) l p' y -> placed_node y.

Lemma inner_right p l p' n a op b : inner_chain p l p' (EBinary n a op b) ->
  left_part p l (p_operand (q_eq p') op false) b.
Proof.
  intros H. remember (EBinary n a op b) as y eqn:E. revert E.
  induction H as [p n0 l0 op0 r0 Ch|p n0 l0 op0 r0 p' x Ch H IH]; intros E.
  - injection E as -> -> -> ->. apply LP_right, Ch.
  - apply LP_left; [exact Ch|exact (IH E)].
Qed.
Lemma inner_head p l p' n a op b : inner_chain p l p' (EBinary n a op b) -> ~ chain_node a ->
  left_part p l (p_operand (q_eq p') op false) a.
Proof.
  intros H N. remember (EBinary n a op b) as y eqn:E. revert E.
  induction H as [p n0 l0 op0 r0 Ch|p n0 l0 op0 r0 p' x Ch H IH]; intros E.
  - injection E as -> -> -> ->. apply LP_left; [exact Ch|apply LP_here, N].
  - apply LP_left; [exact Ch|exact (IH E)].
Qed.
Lemma inner_more p l p' n a op b : inner_chain p l p' (EBinary n a op b) -> chain_node a ->
  inner_chain p l (p_operand (q_eq p') op false) a.
Proof.
  intros H (n1 & l1 & op1 & r1 & -> & C1). remember (EBinary n _ op b) as y eqn:E. revert E.
  induction H as [p n0 l0 op0 r0 Ch|p n0 l0 op0 r0 p' x Ch H IH]; intros E.
  - injection E as -> -> -> ->. apply IC_left; [exact Ch|apply IC_here, C1].
  - apply IC_left; [exact Ch|exact (IH E)].
Qed.
Lemma an_operator p n l op x : in_file o r p (EBinary n l op x) -> ~ skip_asked o p (EBinary n l op x) ->
  operator (t_kind op) = true.
Proof.
  intros If Ns. destruct P as (os & L & _).
  destruct (in_file_segment o pc r p _ os Sh If L) as (anc & fo & m & pre & os' & post & A & F & L' & _).
  assert (S : suppressed o anc (EBinary n l op x) = false).
  { destruct (suppressed o anc (EBinary n l op x)) eqn:E; [|reflexivity]. exfalso. apply Ns.
    exact (suppressed_asked o anc _ p (proj1 (proj2 A)) E). }
  cbn [fmt] in L'. unfold node_rule_soft, node_rule in L'. rewrite S in L'.
  split_lay L'. split_lay L'. clear L'.
  destruct (t_kind op); try reflexivity; exfalso; exact A1.
Qed.

Lemma placed_branch e c : placed_node e -> In c (branches e) ->
  placed_node c \/ exists p, in_file o r p e /\
    (skip_asked o p e \/ table_args p e \/ exists n l, e = EBraced n l /\ curly_curly l).
Proof.
  intros H I. destruct H as [p e If|p n k rc l x If Ns Nt Ix|p n l op x p' y If Ns Ch Ic].
  - destruct (skip_dec p e) as [Sk|Ns]; [right; exists p; auto|].
    assert (G : forall p' c, part o p e p' c -> placed_node c) by (intros p1 c1 Pt; exact (PN_file p1 c1 (in_file_on _ _ _ _ If Ns Pt))).
    destruct e as [n k ts|n op a|n l op x|n l op x|n l op x|n name ps b|n items|n a d|n v|n c0 t el
      |n nl a|n v s b|n c0 b|n b|n es|n b|n f args|n k rc items|n nm v sl|n nm]; cbn [branches] in I.
    + destruct I.
    + destruct I as [<-|[]]. left. eapply G. apply P_unary.
    + pose proof (an_operator _ _ _ _ _ If Ns) as Op. left. destruct I as [<-|[<-|[]]].
      * destruct (chain_op (t_kind op)) eqn:Ch.
        -- destruct (chain_dec l) as [Cl|Nc].
           ++ eapply (PN_chain p n l op x); [exact If|exact Ns|exact Ch|].
              destruct Cl as (n1 & l1 & op1 & r1 & -> & C1). apply IC_here, C1.
           ++ eapply G. apply P_chain; [exact Ch|apply LP_here, Nc].
        -- eapply G. apply P_left; assumption.
      * assert (T : exists table : bool, table = true <-> assignment_op (t_kind op) = true /\ asked DTable p n).
        { destruct (assignment_op (t_kind op)); [|exists false; split; [discriminate|intros [E _]; discriminate E]].
          destruct (asked_dec DTable p n) as [A|A]; [exists true; tauto|exists false]. split; [discriminate|]. intros [_ B]. contradiction. }
        destruct T as [table T]. eapply G. apply (P_right o p n l op x table); assumption.
    + left. destruct I as [<-|[<-|[]]]; eapply G; [apply P_extract_left|apply P_extract_right].
    + left. destruct I as [<-|[<-|[]]]; eapply G; [apply P_namespace_left|apply P_namespace_right].
    + left. destruct I as [<-|[<-|[]]]; eapply G; [apply P_params|apply P_function_body].
    + left. eapply G. apply P_param, I.
    + left. destruct I as [<-|I]; [eapply G; apply P_param_name|]. destruct d; [|destruct I]; destruct I as [<-|[]]. eapply G. apply P_param_default.
    + left. destruct I as [<-|[]]. eapply G. apply P_default.
    + left. destruct I as [<-|[<-|I]]; [eapply G; apply P_cond|eapply G; apply P_then|].
      destruct el; [|destruct I]; destruct I as [<-|[]]. eapply G. apply P_else.
    + left. destruct I as [<-|[]]. eapply G. apply P_else_body.
    + left. destruct I as [<-|[<-|[<-|[]]]]; eapply G; [apply P_for_var|apply P_for_seq|apply P_for_body].
    + left. destruct I as [<-|[<-|[]]]; eapply G; [apply P_while_cond|apply P_while_body].
    + left. destruct I as [<-|[]]. eapply G. apply P_repeat.
    + assert (Cc : curly_curly es \/ ~ curly_curly es).
      { destruct es as [|e0 es]; [right; intros (? & ? & ? & ? & E); discriminate E|].
        destruct es; [|right; intros (? & ? & ? & ? & E); discriminate E].
        destruct e0; try (right; intros (? & ? & ? & ? & E); discriminate E).
        destruct es as [|e1 es]; [right; intros (? & ? & ? & ? & E); discriminate E|].
        destruct es; [|right; intros (? & ? & ? & ? & E); discriminate E].
        destruct e1; try (right; intros (? & ? & ? & ? & E); discriminate E). left. repeat eexists. }
      destruct Cc as [Cc|Nc]; [right; exists p; split; [exact If|right; right; exists n, es; split; [reflexivity|exact Cc]]|].
      apply in_split in I. destruct I as (a & b & ->). left. eapply G. apply P_stmt, Nc.
    + left. destruct I as [<-|[]]. eapply G. apply P_paren.
    + left. destruct I as [<-|[<-|[]]]; [eapply G; apply P_callee|].
      destruct (table_dec p n f) as [table T]. eapply G. apply (P_args o p n f args table), T.
    + assert (T : table_args p (EArgs n k rc items) \/ ~ table_args p (EArgs n k rc items)).
      { unfold table_args. destruct (q_table p); [|right; intros [E _]; discriminate E].
        destruct k; [left; split; [reflexivity|repeat eexists]| |]; right; intros [_ (? & ? & ? & E)]; discriminate E. }
      destruct T as [T|Nt]; [right; exists p; auto|]. left. exact (PN_arg p n k rc items c If Ns Nt I).
    + destruct (in_file_shaped o r p _ Sh If) as [_ Sk]. contradiction (Ns (Sk eq_refl)).
    + left. destruct I as [<-|[]]. eapply G. apply P_name.
  - destruct (in_file_shaped o r p _ Sh If) as [She _]. cbn [shaped] in She. destruct (all_of_In _ _ _ She Ix) as [So _].
    destruct x as [| | | | | | | | | | | | | | | | | |n' nm v sl|]; try discriminate So.
    assert (Tk : q_table p = true -> k <> KCall).
    { intros Q ->. apply Nt. split; [exact Q|repeat eexists]. }
    destruct (asked_dec DSkip p_item n') as [A|A].
    + right. exists p_item. split; [|left; left; exact A].
      apply (in_file_on p (EArgs n k rc l)); [exact If|exact Ns|].
      apply P_skipped_arg; [exact Tk|exact Ix|left; exact A].
    + left. cbn [branches] in I. destruct nm as [c0|].
      * destruct I as [<-|I].
        -- apply (PN_file p_plain), (in_file_on p (EArgs n k rc l)); [exact If|exact Ns|].
           exact (P_arg_name o p n k rc l n' c0 v sl Tk Ix A).
        -- destruct v as [v|]; [|destruct I]; destruct I as [<-|[]].
           apply (PN_file p_plain), (in_file_on p (EArgs n k rc l)); [exact If|exact Ns|].
           exact (P_arg_value o p n k rc l n' (Some c0) v sl Tk Ix A).
      * destruct v as [v|]; [|destruct I]; destruct I as [<-|[]].
        apply (PN_file p_plain), (in_file_on p (EArgs n k rc l)); [exact If|exact Ns|].
        exact (P_arg_value o p n k rc l n' None v sl Tk Ix A).
  - left. destruct (inner_chain_node _ _ _ _ Ic) as (n1 & a & op1 & b & -> & C1). cbn [branches] in I.
    assert (G : forall p2 z, left_part (p_operand (q_eq p) op false) l p2 z -> placed_node z).
    { intros p2 z Lp. apply (PN_file p2), (in_file_on p (EBinary n l op x)); [exact If|exact Ns|]. exact (P_chain o p n l op x p2 z Ch Lp). }
    destruct I as [<-|[<-|[]]].
    + destruct (chain_dec a) as [Ca|Na].
      * exact (PN_chain p n l op x _ a If Ns Ch (inner_more _ _ _ _ _ _ _ Ic Ca)).
      * exact (G _ _ (inner_head _ _ _ _ _ _ _ Ic Na)).
    + exact (G _ _ (inner_right _ _ _ _ _ _ _ Ic)).
Qed.
Lemma placed_under e x : under e x -> placed_node e -> placed_node x \/ hidden o r x.
Proof.
  induction 1 as [x|e c x I U IH]; intros H; [left; exact H|].
  destruct (placed_branch e c H I) as [K|(p & If & K)]; [exact (IH K)|].
  right. exists p, e, c. auto.
Qed.
Theorem every_node_laid g x : In (g, x) (root_nodes r) -> sort_of x <> SoElse ->
  (BesideSpec.hole x = true -> n_lead (notes_of x) <> []) -> (exists p, laid_out o r p x) \/ hidden o r x.
Proof.
  intros I So Ho. unfold root_nodes in I. destruct (row_in _ _ _ _ _ I) as (a & e & b & E & J).
  assert (If : in_file o r (p_stmt true) e) by (exists e; split; [rewrite E; apply in_elt|constructor]).
  destruct (placed_under e x) as [K|K]; [exact (nodes_under x g (S (esize e)) e _ (le_n _) J)|exact (PN_file _ _ If)| |right; exact K].
  left. destruct K as [p e0 Hf|p n k rc l y Hf Ns Nt Iy|p n l op y p' z Hf Ns Ch Ic].
  - exists p. apply laid_node; assumption.
  - exists p_item. apply (laid_argument o r p n k rc l); assumption.
  - exists p'. apply (laid_chain o r p n l op y); assumption.
Qed.
End Cover.
