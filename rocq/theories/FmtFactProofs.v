(** What follows from a program being tidied. *)
From Coq Require Import List Arith Bool NArith Lia.
From Verif Require Import Text SettingsModel SyntaxKind DirectiveModel FmtTree IrModel
  FmtSpec FmtTidyInd.
Import ListNotations.

Lemma all_of_Forall {A} (Q : A -> Prop) l : all_of Q l <-> Forall Q l.
Proof.
  induction l as [|x l IH]; cbn [all_of]; [split; constructor|].
  rewrite IH. split; [intros [a b]; constructor; assumption|intros F; inversion F; auto].
Qed.

(** * Tokens *)

Lemma shaped_tokens e : shaped e -> sort_of e = SoExpr -> etokens e <> [].
Proof.
  induction e using expr_ind'; intros Sh So; cbn [etokens] in *; try discriminate.
  - exact Sh.
  - destruct (etokens e1); discriminate.
  - destruct (etokens e1); discriminate.
  - destruct (etokens e1); discriminate.
  - destruct Sh as [[S1 S2] _]. specialize (IHe1 S2 S1). destruct (etokens e1); [contradiction|].
    discriminate.
Qed.

Section Retok.
Variable o : format_options.
Let st := o_assignment_style o.

Lemma retok_cons t t' x x' : retok st [t] [t'] -> retok st x x' -> retok st (t :: x) (t' :: x').
Proof. intros A B. exact (RT_app st [t] [t'] x x' A B). Qed.
Lemma retok_fixed t x x' : retok st x x' -> retok st (t :: x) (t :: x').
Proof. apply retok_cons, RT_copy. Qed.
Lemma retok_snoc t x x' : retok st x x' -> retok st (x ++ [t]) (x' ++ [t]).
Proof. intros H. apply RT_app; [exact H|apply RT_copy]. Qed.
Lemma retok_refl x : retok st x x.
Proof. induction x; [constructor|]. apply retok_fixed; assumption. Qed.
Lemma retok_concat l l' :
  Forall2 (fun e e' => retok st (etokens e) (etokens e')) l l' ->
  retok st (concat (map etokens l)) (concat (map etokens l')).
Proof. induction 1; cbn [map concat]; [constructor|]. apply RT_app; assumption. Qed.
Lemma retok_commas l l' :
  Forall2 (fun e e' => retok st (etokens e) (etokens e')) l l' ->
  retok st (commas (map etokens l)) (commas (map etokens l')).
Proof.
  induction 1 as [|x y l l' H F IH]; cbn [map commas]; [constructor|].
  destruct F as [|x2 y2 l l' H2 F]; [exact H|]. cbn [map] in *.
  apply RT_app; [exact H|]. apply retok_fixed; exact IH.
Qed.

Lemma retok_restyled eq op op' : restyled st eq op op' -> retok st [op] [op'].
Proof.
  unfold restyled. intros H.
  destruct st eqn:Es, (t_kind op) eqn:Ek, eq; try exact (RT_keep _ _ _ H);
    subst op'; rewrite <- ?Es in *; (apply RT_arrow; [congruence|exact Ek]) ||
    (apply RT_equal; [congruence|exact Ek]).
Qed.

Definition Tok (e e' : expr) : Prop := shaped e -> retok st (etokens e) (etokens e').
Definition TokB (e e' : expr) : Prop := sort_of e = SoExpr -> Tok e e'.

Lemma Tok_all s l l' :
  Forall2 Tok l l' -> all_of (fun x => sort_of x = s /\ shaped x) l ->
  Forall2 (fun e e' => retok st (etokens e) (etokens e')) l l'.
Proof.
  induction 1 as [|x y l l' H F IH]; intros A; constructor; destruct A as [[A1 A2] A3]; auto.
Qed.
Lemma Tok_opt s x x' :
  opt_rel Tok x x' -> opt_all (fun x => sort_of x = s /\ shaped x) x ->
  retok st (opt_list etokens x) (opt_list etokens x').
Proof. intros [|a b H] A; [constructor|]. cbn [opt_list]. apply H, A. Qed.

Lemma tidy_Tok p e e' : tidy o p e e' -> Tok e e'.
Proof.
  revert p e e'.
  apply (tidy_ind' o (fun _ => Tok) (fun _ => Tok)
    (fun _ el el' => opt_all (fun x => sort_of x = SoElse /\ shaped x) el ->
       retok st (opt_list etokens el) (opt_list etokens el')) (fun _ => TokB));
    unfold TokB, Tok; cbn [etokens shaped]; intros; fold Tok in *.
  - apply retok_refl.
  - clear H0. induction H; [constructor|]. apply retok_cons; [apply RT_keep; assumption|].
    assumption.
  - apply retok_cons; [apply RT_keep; assumption|]. apply H0, H1.
  - destruct H5 as [[_ S1] [_ S2]]. apply RT_app; [auto|].
    apply retok_cons; [eapply retok_restyled; exact H|]. auto.
  - destruct H2 as [[_ S1] [_ S2]]. apply RT_app; [auto|].
    apply retok_cons; [apply RT_keep; assumption|]. auto.
  - destruct H2 as [[_ S1] [_ S2]]. apply RT_app; [auto|].
    apply retok_cons; [apply RT_keep; assumption|]. auto.
  - destruct H3 as [[_ S1] [S2 S3]]. apply retok_cons; [apply RT_keep; assumption|].
    apply RT_app; auto.
  - apply retok_fixed, retok_snoc, retok_commas, (Tok_all SoParam); assumption.
  - destruct H1 as [[_ S1] S2]. apply RT_app; [auto|]. exact (Tok_opt SoDefault _ _ H0 S2).
  - destruct H0 as [_ S1]. apply retok_fixed. auto.
  - auto.
  - destruct H2 as [[_ S1] [[_ S2] [S3 S4]]]. do 2 apply retok_fixed.
    apply RT_app; [auto|]. apply retok_fixed. apply RT_app; [auto|]. apply retok_fixed. auto.
  - destruct H1 as [[_ S1] [S3 S4]]. do 2 apply retok_fixed.
    apply RT_app; [auto|]. apply retok_fixed. auto.
  - destruct H0 as [S1 S2]. apply retok_fixed. auto.
  - apply retok_fixed, retok_snoc. induction H as [|a b l l' H F IH]; [constructor|].
    destruct H0 as [[_ S1] S2]. cbn [map concat]. apply RT_app; auto.
  - destruct H0 as [_ S1]. apply retok_fixed, retok_snoc. auto.
  - destruct H2 as [[_ S1] [_ S2]]. apply RT_app; auto.
  - apply retok_fixed, retok_snoc, retok_commas, (Tok_all SoArg); assumption.
  - apply retok_refl.
  - destruct H1 as [S1 S2].
    apply RT_app; [exact (Tok_opt SoName _ _ H S1)|exact (Tok_opt SoExpr _ _ H0 S2)].
  - destruct H0 as [_ S1]. apply retok_snoc. auto.
  - destruct H3 as [[_ S1] [[S2 S3] S4]]. do 2 apply retok_fixed.
    apply RT_app; [auto|]. apply retok_fixed. apply RT_app; auto.
  - constructor.
  - destruct H1 as [_ [_ S1]]. apply retok_fixed. auto.
  - destruct H1 as [_ [S0 S1]]. apply retok_fixed. auto.
  - auto.
  - cbn [etokens add_braces map concat]. rewrite app_nil_r.
    apply RT_braces; [apply shaped_tokens; assumption|]. auto.
  - auto.
Qed.
End Retok.

(** * Braces *)

Section Braces.
Variable o : format_options.

Definition nice (e : expr) : Prop := loop_braced e /\ branches_alike e /\ block_braced e.

Lemma undirected_skip p e : undirected o e -> skip_asked o p e -> False.
Proof.
  intros [U V] [[_ [c [I D]]]|[n [f [args [-> [_ L]]]]]].
  - exact (proj1 (U c I) D).
  - exact (proj1 V L).
Qed.
Lemma undirected_table p n l op r : undirected o (EBinary n l op r) -> asked DTable p n -> False.
Proof. intros [U _] [_ [c [I D]]]. exact (proj2 (U c I) D). Qed.
Lemma undirected_call p n f args :
  undirected o (ECall n f args) -> q_table p = false -> table_asked o p n f -> False.
Proof.
  intros [U V] Q [T|[[_ [c [I D]]]|L]]; [congruence|exact (proj2 (U c I) D)|exact (proj2 V L)].
Qed.

Lemma tidy_braced p e e' : tidy o p e e' -> is_braced e' = is_braced e.
Proof. intros H. inversion H; subst; try reflexivity. inversion H0; reflexivity. Qed.
Lemma tidy_is_if p e e' : tidy o p e e' -> is_if e' = is_if e.
Proof. intros H. inversion H; subst; try reflexivity. inversion H0; reflexivity. Qed.

Definition all_braced (l : list expr) : Prop := forall b, In b l -> is_braced b = true.
Definition none_braced (l : list expr) : Prop := forall b, In b l -> is_braced b = false.
Definition else_branches (el : option expr) : list expr :=
  match el with
  | Some (EElse _ _ a) => if is_if a then branches a else [a]
  | _ => []
  end.
Lemma not_if_branches e : is_if e = false -> branches e = [].
Proof. destruct e; try reflexivity. discriminate. Qed.
Lemma nice_other e : is_if e = false -> loop_braced e -> block_braced e -> nice e.
Proof.
  intros I L B. split; [exact L|]. split; [|exact B]. left. intros b H.
  rewrite (not_if_branches e I) in H. destruct H.
Qed.

Definition Nice (p : pos) (e e' : expr) : Prop :=
  q_table p = false -> everywhere (undirected o) e ->
  everywhere nice e' /\ (q_effect p = true -> all_braced (branches e')) /\
  is_braced e' = is_braced e /\ is_if e' = is_if e.
Definition NiceI (w : bool) (e e' : expr) : Prop :=
  everywhere (undirected o) e ->
  everywhere nice e' /\ (w = true -> all_braced (branches e')) /\
  is_if e = true /\ is_if e' = true.
Definition NiceE (w : bool) (el el' : option expr) : Prop :=
  opt_all (everywhere (undirected o)) el ->
  opt_all (everywhere nice) el' /\ (w = true -> all_braced (else_branches el')) /\
  (w = false -> (forall n nl a, el = Some (EElse n nl a) -> is_braced a = false /\ is_if a = false) ->
   none_braced (else_branches el')).
Definition NiceB (w : bool) (e e' : expr) : Prop :=
  everywhere (undirected o) e ->
  everywhere nice e' /\ (w = true -> is_braced e' = true) /\
  (is_braced e = false -> w = false -> is_braced e' = false) /\
  (is_if e = false -> is_if e' = false).

Lemma everywhere_self Q e : everywhere Q e -> Q e.
Proof. destruct e; intros [H _]; exact H. Qed.
Lemma Nice_all p l l' :
  q_table p = false ->
  Forall2 (Nice p) l l' -> all_of (everywhere (undirected o)) l -> all_of (everywhere nice) l'.
Proof.
  intros Q. induction 1 as [|x y l l' H F IH]; intros A; [exact I|].
  destruct A as [A B]. split; [exact (proj1 (H Q A))|auto].
Qed.
Lemma Nice_opt p x x' :
  q_table p = false ->
  opt_rel (Nice p) x x' -> opt_all (everywhere (undirected o)) x -> opt_all (everywhere nice) x'.
Proof. intros Q [|a b H] A; [exact I|]. exact (proj1 (H Q A)). Qed.
Lemma Nice_stmts l l' :
  stmts_rel (fun effect => Nice (p_stmt effect)) l l' ->
  all_of (everywhere (undirected o)) l ->
  all_of (everywhere nice) l' /\ effects_braced false l'.
Proof.
  induction 1 as [|x y l l' H F IH]; intros A; [split; exact I|].
  destruct A as [A B]. destruct (H eq_refl A) as [H1 [H2 _]]. destruct (IH B) as [I1 I2].
  split; [split; assumption|]. split; [|exact I2].
  intros [E|E]; [|discriminate]. apply H2. destruct F; [discriminate|reflexivity].
Qed.

Ltac other := apply nice_other; [reflexivity|exact I|exact I].

Lemma tidy_Nice p e e' : tidy o p e e' -> Nice p e e'.
Proof.
  revert p e e'. apply (tidy_ind' o Nice NiceI NiceE NiceB).
  - intros p e S _ U. destruct (undirected_skip p e (everywhere_self _ _ U) S).
  - intros p n k ts ts' _ _ _. split; [split; [other|exact I]|].
    split; [intros _ b []|split; reflexivity].
  - intros p n op op' a a' _ IH _ [_ U]. destruct (IH eq_refl U) as [N _].
    split; [split; [other|exact N]|]. split; [intros _ b []|split; reflexivity].
  - intros p n l l' op op' r r' table _ T IHl IHr _ _ _ [U [Ul Ur]].
    destruct table; [destruct (undirected_table _ _ _ _ _ U (proj2 (T eq_refl)))|].
    destruct (IHl eq_refl Ul) as [N _]. destruct (IHr eq_refl Ur) as [N' _].
    split; [split; [other|split; assumption]|]. split; [intros _ b []|split; reflexivity].
  - intros p n l l' op op' r r' _ IHl IHr _ [U [Ul Ur]].
    destruct (IHl eq_refl Ul) as [N _]. destruct (IHr eq_refl Ur) as [N' _].
    split; [split; [other|split; assumption]|]. split; [intros _ b []|split; reflexivity].
  - intros p n l l' op op' r r' _ IHl IHr _ [U [Ul Ur]].
    destruct (IHl eq_refl Ul) as [N _]. destruct (IHr eq_refl Ur) as [N' _].
    split; [split; [other|split; assumption]|]. split; [intros _ b []|split; reflexivity].
  - intros p n name name' ps ps' w b b' _ IHl IHr _ _ [U [Ul Ur]].
    destruct (IHl eq_refl Ul) as [N _]. destruct (IHr Ur) as [N' _].
    split; [split; [other|split; assumption]|]. split; [intros _ z []|split; reflexivity].
  - intros p n l l' F _ [U Ul].
    split; [split; [other|exact (Nice_all p_plain _ _ eq_refl F Ul)]|].
    split; [intros _ b []|split; reflexivity].
  - intros p n a a' d d' IHa Od _ [U [Ua Ud]]. destruct (IHa eq_refl Ua) as [N _].
    split; [split; [other|split; [exact N|exact (Nice_opt p_plain _ _ eq_refl Od Ud)]]|].
    split; [intros _ b []|split; reflexivity].
  - intros p n v v' IH _ [_ U]. destruct (IH eq_refl U) as [N _].
    split; [split; [other|exact N]|]. split; [intros _ b []|split; reflexivity].
  - intros p w e e' IH W _ U. destruct (IH U) as [N [A [I1 I2]]].
    split; [exact N|]. split; [intros E; apply A, W, E|].
    split; [|congruence]. destruct e, e'; try discriminate. reflexivity.
  - intros p n v v' s s' b b' IHv IHs IHb _ [U [Uv [Us Ub]]].
    destruct (IHv eq_refl Uv) as [N _]. destruct (IHs eq_refl Us) as [N' _].
    destruct (IHb Ub) as [N'' [B _]].
    split; [split; [apply nice_other; [reflexivity|exact (B eq_refl)|exact I]|
                    split; [|split]; assumption]|].
    split; [intros _ z []|split; reflexivity].
  - intros p n c c' b b' IHv IHb _ [U [Uv Ub]].
    destruct (IHv eq_refl Uv) as [N _]. destruct (IHb Ub) as [N'' [B _]].
    split; [split; [apply nice_other; [reflexivity|exact (B eq_refl)|exact I]|
                    split; assumption]|].
    split; [intros _ z []|split; reflexivity].
  - intros p n b b' IHb _ [U Ub]. destruct (IHb Ub) as [N'' [B _]].
    split; [split; [apply nice_other; [reflexivity|exact (B eq_refl)|exact I]|assumption]|].
    split; [intros _ z []|split; reflexivity].
  - intros p n l l' F _ [U Ul]. destruct (Nice_stmts _ _ F Ul) as [N B].
    split; [split; [apply nice_other; [reflexivity|exact I|exact B]|exact N]|].
    split; [intros _ z []|split; reflexivity].
  - intros p n v v' IH _ [_ U]. destruct (IH eq_refl U) as [N _].
    split; [split; [other|exact N]|]. split; [intros _ b []|split; reflexivity].
  - intros p n f f' args args' table T IHf IHa Q [U [Uf Ua]].
    destruct table; [destruct (undirected_call _ _ _ _ U Q (T eq_refl))|].
    destruct (IHf eq_refl Uf) as [N _]. destruct (IHa eq_refl Ua) as [N' _].
    split; [split; [other|split; assumption]|]. split; [intros _ b []|split; reflexivity].
  - intros p n k rc l l' F _ [U Ul].
    split; [split; [other|exact (Nice_all p_item _ _ eq_refl F Ul)]|].
    split; [intros _ b []|split; reflexivity].
  - intros p n rc l Q Q'. congruence.
  - intros p n nm nm' v v' sl On Ov _ [U [Un Uv]].
    split; [split; [other|split; [exact (Nice_opt p_plain _ _ eq_refl On Un)|
                                  exact (Nice_opt p_plain _ _ eq_refl Ov Uv)]]|].
    split; [intros _ b []|split; reflexivity].
  - intros p n v v' IH _ [_ U]. destruct (IH eq_refl U) as [N _].
    split; [split; [other|exact N]|]. split; [intros _ b []|split; reflexivity].
  - (* if *)
    intros w n c c' t t' el el' IHc IHt IHe Fo [U [Uc [Ut Ue]]].
    destruct (IHc eq_refl Uc) as [Nc _]. destruct (IHt Ut) as [Nt [Bt [Bt' _]]].
    destruct (IHe Ue) as [Ne [Be Be']].
    assert (Br : branches (EIf n c' t' el') = t' :: else_branches el').
    { destruct el' as [[]|]; reflexivity. }
    assert (W : w = true -> all_braced (branches (EIf n c' t' el'))).
    { intros W b I. rewrite Br in I. destruct I as [<-|I]; [exact (Bt W)|exact (Be W b I)]. }
    split; [|split; [exact W|split; reflexivity]].
    split; [|split; [|split]; assumption].
    split; [exact I|]. split; [|exact I].
    destruct w; [left; apply W; reflexivity|]. right. intros b I.
    rewrite Br in I. destruct I as [<-|I].
    + apply Bt'; [|reflexivity]. destruct (is_braced t) eqn:E; [|reflexivity].
      discriminate Fo. right. left. exact E.
    + refine (Be' eq_refl _ b I). intros n0 nl a ->. split.
      * destruct (is_braced a) eqn:E; [|reflexivity]. discriminate Fo.
        right. right. right. exists n0, nl, a. auto.
      * destruct (is_if a) eqn:E; [|reflexivity]. discriminate Fo.
        right. right. right. exists n0, nl, a. auto.
  - intros w _. split; [exact I|]. split; intros; intros b [].
  - intros w n nl a a' Ia IH U. cbn [opt_all] in U. destruct U as [_ U].
    destruct (IH U) as [N [A [_ I2]]].
    split; [split; [other|exact N]|].
    split.
    + intros W b I. cbn [else_branches] in I. rewrite I2 in I. exact (A W b I).
    + intros _ X. destruct (X _ _ _ eq_refl). congruence.
  - intros w n nl a a' Ia IH U. cbn [opt_all] in U. destruct U as [_ U].
    destruct (IH U) as [N [A [B C]]].
    split; [split; [other|exact N]|].
    split.
    + intros W b I. cbn [else_branches] in I. rewrite (C Ia) in I. destruct I as [<-|[]]. auto.
    + intros W X b I. cbn [else_branches] in I. rewrite (C Ia) in I. destruct I as [<-|[]].
      destruct (X _ _ _ eq_refl). auto.
  - intros w b b' Bb IH U. destruct (IH eq_refl U) as [N [_ [E1 E2]]].
    split; [exact N|]. split; [congruence|]. split; congruence.
  - intros b b' Bb IH U. destruct (IH eq_refl U) as [N [_ [E1 E2]]].
    split; [split; [apply nice_other; [reflexivity|exact I|]|split; [exact N|exact I]]|].
    + split; [|exact I]. intros [E|E]; discriminate.
    + split; [reflexivity|]. split; [discriminate|reflexivity].
  - intros b b' Bb IH U. destruct (IH eq_refl U) as [N [_ [E1 E2]]].
    split; [exact N|]. split; [discriminate|]. split; congruence.
Qed.
End Braces.

(** * Assignments *)

Section Assign.
Variable o : format_options.

Lemma same_token_kind t t' : same_token t t' -> t_kind t' = t_kind t.
Proof.
  unfold same_token. destruct (kind_eqb _ _) eqn:E; [|intros ->; reflexivity].
  apply kind_eqb_eq in E. intros [A _]. congruence.
Qed.
Lemma eq_ok_mono e : eq_ok false e -> eq_ok true e.
Proof.
  induction e using expr_ind'; try exact (fun i => i).
  cbn [eq_ok andb]. intros [_ [A B]]. split; [reflexivity|].
  destruct (_ || _); auto.
Qed.
Lemma eq_ok_le eq eq' e : (eq = true -> eq' = true) -> eq_ok eq e -> eq_ok eq' e.
Proof.
  intros L H. destruct eq.
  - rewrite (L eq_refl). exact H.
  - destruct eq'; [apply eq_ok_mono, H|exact H].
Qed.
Lemma eq_ok_indep eq eq' e : is_binary e = false -> eq_ok eq e -> eq_ok eq' e.
Proof. destruct e; try exact (fun _ i => i). discriminate. Qed.

Lemma eq_ok_all Q l l' :
  Forall2 (fun a b => eq_ok Q a -> eq_ok Q b) l l' -> all_of (eq_ok Q) l -> all_of (eq_ok Q) l'.
Proof.
  induction 1 as [|x y l l' H F IH]; intros A; [exact I|]. destruct A. split; auto.
Qed.
Lemma eq_ok_opt Q x x' :
  opt_rel (fun a b => eq_ok Q a -> eq_ok Q b) x x' ->
  opt_all (eq_ok Q) x -> opt_all (eq_ok Q) x'.
Proof. intros [|a b H] A; [exact I|]. exact (H A). Qed.

Lemma kind_neq_eqb a b : a <> b -> kind_eqb a b = false.
Proof. apply kind_eqb_neq. Qed.

(** ** Style equal *)
Lemma restyled_equal eq op op' :
  restyled AEqual eq op op' ->
  (t_kind op = ASSIGN /\ eq = true /\ t_kind op' = EQUAL) \/
  ((t_kind op <> ASSIGN \/ eq = false) /\ t_kind op' = t_kind op).
Proof.
  unfold restyled. intros H. destruct (kind_eqb (t_kind op) ASSIGN) eqn:E.
  - apply kind_eqb_eq in E. rewrite E in H. destruct eq.
    + left. subst op'. auto.
    + right. split; [auto|]. apply same_token_kind, H.
  - right. assert (N : t_kind op <> ASSIGN) by (intros A; rewrite A in E; discriminate).
    split; [auto|]. apply same_token_kind. destruct (t_kind op), eq; try exact H. contradiction.
Qed.

Lemma tidy_eq_equal p e e' :
  o_assignment_style o = AEqual -> tidy o p e e' -> eq_ok (q_eq p) e -> eq_ok (q_eq p) e'.
Proof.
  intros St. revert p e e'.
  apply (tidy_ind' o (fun p e e' => eq_ok (q_eq p) e -> eq_ok (q_eq p) e')
    (fun _ e e' => forall eq, eq_ok eq e -> eq_ok eq e')
    (fun _ el el' => opt_all (eq_ok false) el -> opt_all (eq_ok false) el')
    (fun _ e e' => eq_ok true e -> eq_ok true e')).
  - intros p e _ H. exact H.
  - intros. exact I.
  - intros p n op op' a a' S IH H. cbn [eq_ok] in *. rewrite (same_token_kind _ _ S).
    apply IH, H.
  - intros p n l l' op op' r r' table R _ IHl IHr _ _ H. rewrite St in R.
    apply restyled_equal in R. cbn [eq_ok p_operand mkpos q_eq] in *.
    destruct H as [H1 [H2 H3]].
    destruct R as [[K [E K']]|[N K']].
    + rewrite K' in *. rewrite E in *. cbn [andb] in *. split; [reflexivity|].
      assert (P : passes_eq (t_kind op) = true) by (rewrite K; reflexivity).
      rewrite P in *. rewrite K in H2, H3. cbn in H2, H3. cbn [kind_eqb].
      split; [apply IHl, eq_ok_mono, H2|apply IHr, eq_ok_mono, H3].
    + rewrite K'. split; [exact H1|].
      assert (P : q_eq p && passes_eq (t_kind op) =
                  q_eq p && (kind_eqb (t_kind op) EQUAL || kind_eqb (t_kind op) WAT)).
      { destruct (q_eq p); [|reflexivity]. cbn [andb]. unfold passes_eq. cbn [existsb].
        destruct N as [N|N]; [|discriminate]. rewrite (kind_neq_eqb _ _ N).
        rewrite orb_false_r. reflexivity. }
      rewrite <- P in *. split; [apply IHl, H2|apply IHr, H3].
  - intros p n l l' op op' r r' _ IHl IHr [H1 H2]. split; [apply IHl, H1|apply IHr, H2].
  - intros p n l l' op op' r r' _ IHl IHr [H1 H2]. split; [apply IHl, H1|apply IHr, H2].
  - intros p n name name' ps ps' w b b' _ IHl IHr _ [H1 H2]. split; [apply IHl, H1|apply IHr, H2].
  - intros p n l l' F H. exact (eq_ok_all false l l' F H).
  - intros p n a a' d d' IHa Od [H1 H2]. split; [apply IHa, H1|exact (eq_ok_opt false d d' Od H2)].
  - intros p n v v' IH H. apply IH, H.
  - intros p w e e' IH _ H. apply IH, H.
  - intros p n v v' s s' b b' IHv IHs IHb [H1 [H2 H3]].
    split; [apply IHv, H1|]. split; [apply IHs, H2|apply IHb, H3].
  - intros p n c c' b b' IHv IHb [H1 H3]. split; [apply IHv, H1|apply IHb, H3].
  - intros p n b b' IHb H. apply IHb, H.
  - intros p n l l' F H. cbn [eq_ok] in *.
    induction F as [|x y l l' Hx F IH]; [exact I|]. destruct H as [H1 H2]. split; auto.
  - intros p n b b' IHb H. apply IHb, H.
  - intros p n f f' args args' table _ IHf IHa [H1 H2]. split; [apply IHf, H1|apply IHa, H2].
  - intros p n k rc l l' F H. exact (eq_ok_all false l l' F H).
  - intros p n rc l _ H. exact H.
  - intros p n nm nm' v v' sl On Ov [H1 H2].
    split; [exact (eq_ok_opt false _ _ On H1)|exact (eq_ok_opt false _ _ Ov H2)].
  - intros p n v v' IH H. apply IH, H.
  - intros w n c c' t t' el el' IHc IHt IHe _ eq [H1 [H2 H3]].
    split; [apply IHc, H1|]. split; [apply IHt, H2|apply IHe, H3].
  - intros w H. exact H.
  - intros w n nl a a' Ia IH H. apply IH, H.
  - intros w n nl a a' Ia IH H. apply IH, H.
  - intros w b b' _ IH H. apply IH, H.
  - intros b b' _ IH H. split; [apply IH, H|exact I].
  - intros b b' _ IH H. apply IH, H.
Qed.

(** ** Style preserve *)
Lemma tidy_eq_preserve p e e' :
  o_assignment_style o = APreserve -> tidy o p e e' -> forall eq, eq_ok eq e -> eq_ok eq e'.
Proof.
  intros St. revert p e e'.
  apply (tidy_ind' o (fun _ e e' => forall eq, eq_ok eq e -> eq_ok eq e')
    (fun _ e e' => forall eq, eq_ok eq e -> eq_ok eq e')
    (fun _ el el' => opt_all (eq_ok false) el -> opt_all (eq_ok false) el')
    (fun _ e e' => forall eq, eq_ok eq e -> eq_ok eq e')).
  - intros p e _ eq H. exact H.
  - intros. exact I.
  - intros p n op op' a a' S IH eq H. cbn [eq_ok] in *. rewrite (same_token_kind _ _ S).
    apply IH, H.
  - intros p n l l' op op' r r' table R _ IHl IHr _ _ eq H. rewrite St in R.
    apply same_token_kind in R. cbn [eq_ok] in *. rewrite R.
    destruct H as [H1 [H2 H3]]. split; [exact H1|]. split; [apply IHl, H2|apply IHr, H3].
  - intros p n l l' op op' r r' _ IHl IHr eq [H1 H2]. split; [apply IHl, H1|apply IHr, H2].
  - intros p n l l' op op' r r' _ IHl IHr eq [H1 H2]. split; [apply IHl, H1|apply IHr, H2].
  - intros p n name name' ps ps' w b b' _ IHl IHr _ eq [H1 H2].
    split; [apply IHl, H1|apply IHr, H2].
  - intros p n l l' F eq H. refine (eq_ok_all false l l' _ H).
    clear H. induction F; constructor; auto.
  - intros p n a a' d d' IHa Od eq [H1 H2]. split; [apply IHa, H1|].
    refine (eq_ok_opt false d d' _ H2). destruct Od; constructor; auto.
  - intros p n v v' IH eq H. apply IH, H.
  - intros p w e e' IH _ eq H. apply IH, H.
  - intros p n v v' s s' b b' IHv IHs IHb eq [H1 [H2 H3]].
    split; [apply IHv, H1|]. split; [apply IHs, H2|apply IHb, H3].
  - intros p n c c' b b' IHv IHb eq [H1 H3]. split; [apply IHv, H1|apply IHb, H3].
  - intros p n b b' IHb eq H. apply IHb, H.
  - intros p n l l' F eq H. cbn [eq_ok] in *.
    induction F as [|x y l l' Hx F IH]; [exact I|]. destruct H as [H1 H2]. split; auto.
  - intros p n b b' IHb eq H. apply IHb, H.
  - intros p n f f' args args' table _ IHf IHa eq [H1 H2]. split; [apply IHf, H1|apply IHa, H2].
  - intros p n k rc l l' F eq H. refine (eq_ok_all false l l' _ H).
    clear H. induction F; constructor; auto.
  - intros p n rc l _ eq H. exact H.
  - intros p n nm nm' v v' sl On Ov eq [H1 H2].
    split; [refine (eq_ok_opt false _ _ _ H1); destruct On; constructor; auto|
            refine (eq_ok_opt false _ _ _ H2); destruct Ov; constructor; auto].
  - intros p n v v' IH eq H. apply IH, H.
  - intros w n c c' t t' el el' IHc IHt IHe _ eq [H1 [H2 H3]].
    split; [apply IHc, H1|]. split; [apply IHt, H2|apply IHe, H3].
  - intros w H. exact H.
  - intros w n nl a a' Ia IH H. apply IH, H.
  - intros w n nl a a' Ia IH H. apply IH, H.
  - intros w b b' _ IH eq H. apply IH, H.
  - intros b b' Bb IH eq H. split; [|exact I]. apply IH.
    exact (eq_ok_le eq true b (fun _ => eq_refl) H).
  - intros b b' _ IH eq H. apply IH, H.
Qed.

(** ** Style arrow *)
Lemma restyled_arrow eq op op' :
  restyled AArrow eq op op' ->
  t_kind op' <> EQUAL /\ (t_kind op <> EQUAL -> t_kind op' = t_kind op).
Proof.
  unfold restyled. intros H. destruct (kind_eqb (t_kind op) EQUAL) eqn:E.
  - apply kind_eqb_eq in E. rewrite E in H. subst op'. split; [discriminate|]. intros []; exact E.
  - assert (N : t_kind op <> EQUAL) by (intros A; rewrite A in E; discriminate).
    assert (K : t_kind op' = t_kind op).
    { apply same_token_kind. destruct (t_kind op); try exact H. contradiction. }
    rewrite K. auto.
Qed.

Definition Arrow (e e' : expr) : Prop :=
  everywhere plain_assignment e -> forall eq, eq_ok eq e -> eq_ok false e'.

Lemma Arrow_all eq l l' :
  Forall2 Arrow l l' -> all_of (everywhere plain_assignment) l -> all_of (eq_ok eq) l ->
  all_of (eq_ok false) l'.
Proof.
  induction 1 as [|x y l l' H F IH]; intros U A; [exact I|]. destruct U, A. split; eauto.
Qed.
Lemma Arrow_opt eq x x' :
  opt_rel Arrow x x' -> opt_all (everywhere plain_assignment) x -> opt_all (eq_ok eq) x ->
  opt_all (eq_ok false) x'.
Proof. intros [|a b H] U A; [exact I|]. exact (H U eq A). Qed.

Lemma tidy_eq_arrow p e e' :
  o_assignment_style o = AArrow -> tidy o p e e' -> Arrow e e'.
Proof.
  intros St. revert p e e'.
  apply (tidy_ind' o (fun _ => Arrow) (fun _ => Arrow)
    (fun _ el el' => opt_all (everywhere plain_assignment) el ->
       opt_all (eq_ok false) el -> opt_all (eq_ok false) el')
    (fun _ => Arrow)); unfold Arrow.
  - intros p e S U eq H. destruct (is_binary e) eqn:B.
    + exfalso. destruct e; try discriminate. destruct U as [U _]. cbn [plain_assignment] in U.
      destruct S as [[_ [c [I D]]]|[n0 [f [args [E _]]]]]; [|discriminate].
      exact (U c I D).
    + exact (eq_ok_indep eq false e B H).
  - intros. exact I.
  - intros p n op op' a a' S IH [_ U] eq H. cbn [eq_ok] in *.
    exact (eq_ok_le false _ _ (fun X => ltac:(discriminate)) (IH U _ H)).
  - intros p n l l' op op' r r' table R _ IHl IHr _ _ [_ [Ul Ur]] eq H. rewrite St in R.
    apply restyled_arrow in R. destruct R as [R _]. cbn [eq_ok] in *.
    destruct H as [H1 [H2 H3]]. split; [contradiction|]. cbn [andb].
    split; [exact (IHl Ul _ H2)|exact (IHr Ur _ H3)].
  - intros p n l l' op op' r r' _ IHl IHr [_ [Ul Ur]] eq [H1 H2].
    split; [exact (IHl Ul _ H1)|exact (IHr Ur _ H2)].
  - intros p n l l' op op' r r' _ IHl IHr [_ [Ul Ur]] eq [H1 H2].
    split; [exact (IHl Ul _ H1)|exact (IHr Ur _ H2)].
  - intros p n name name' ps ps' w b b' _ IHl IHr _ [_ [Ul Ur]] eq [H1 H2].
    split; [exact (IHl Ul _ H1)|apply eq_ok_mono, (IHr Ur _ H2)].
  - intros p n l l' F [_ U] eq H. exact (Arrow_all false l l' F U H).
  - intros p n a a' d d' IHa Od [_ [Ua Ud]] eq [H1 H2].
    split; [exact (IHa Ua _ H1)|exact (Arrow_opt false d d' Od Ud H2)].
  - intros p n v v' IH [_ U] eq H. exact (IH U _ H).
  - intros p w e e' IH _ U eq H. exact (IH U _ H).
  - intros p n v v' s s' b b' IHv IHs IHb [_ [Uv [Us Ub]]] eq [H1 [H2 H3]].
    split; [exact (IHv Uv _ H1)|]. split; [exact (IHs Us _ H2)|apply eq_ok_mono, (IHb Ub _ H3)].
  - intros p n c c' b b' IHv IHb [_ [Uv Ub]] eq [H1 H3].
    split; [exact (IHv Uv _ H1)|apply eq_ok_mono, (IHb Ub _ H3)].
  - intros p n b b' IHb [_ U] eq H. apply eq_ok_mono, (IHb U _ H).
  - intros p n l l' F [_ U] eq H. cbn [eq_ok] in *.
    induction F as [|x y l l' Hx F IH]; [exact I|]. destruct H as [H1 H2]. destruct U as [U1 U2].
    split; [apply eq_ok_mono, (Hx U1 _ H1)|auto].
  - intros p n b b' IHb [_ U] eq H. apply eq_ok_mono, (IHb U _ H).
  - intros p n f f' args args' table _ IHf IHa [_ [Uf Ua]] eq [H1 H2].
    split; [exact (IHf Uf _ H1)|exact (IHa Ua _ H2)].
  - intros p n k rc l l' F [_ U] eq H. exact (Arrow_all false l l' F U H).
  - intros p n rc l _ _ eq H. exact H.
  - intros p n nm nm' v v' sl On Ov [_ [Un Uv]] eq [H1 H2].
    split; [exact (Arrow_opt false _ _ On Un H1)|exact (Arrow_opt false _ _ Ov Uv H2)].
  - intros p n v v' IH [_ U] eq H. exact (IH U _ H).
  - intros w n c c' t t' el el' IHc IHt IHe _ [_ [Uc [Ut Ue]]] eq [H1 [H2 H3]].
    split; [exact (IHc Uc _ H1)|]. split; [apply eq_ok_mono, (IHt Ut _ H2)|exact (IHe Ue H3)].
  - intros w U H. exact H.
  - intros w n nl a a' Ia IH [_ U] H. apply eq_ok_mono, (IH U _ H).
  - intros w n nl a a' Ia IH [_ U] H. apply eq_ok_mono, (IH U _ H).
  - intros w b b' _ IH U eq H. exact (IH U _ H).
  - intros b b' Bb IH U eq H. split; [|exact I]. apply eq_ok_mono, (IH U _ H).
  - intros b b' _ IH U eq H. exact (IH U _ H).
Qed.

(** No [=] assignment is left. *)
Definition NoEq (p : pos) (e e' : expr) : Prop :=
  q_table p = false -> everywhere (undirected o) e -> everywhere no_equal e'.
Lemma NoEq_all p l l' :
  q_table p = false ->
  Forall2 (NoEq p) l l' -> all_of (everywhere (undirected o)) l -> all_of (everywhere no_equal) l'.
Proof.
  intros Q. induction 1 as [|x y l l' H F IH]; intros A; [exact I|].
  destruct A as [A B]. split; [exact (H Q A)|auto].
Qed.
Lemma NoEq_opt p x x' :
  q_table p = false ->
  opt_rel (NoEq p) x x' -> opt_all (everywhere (undirected o)) x ->
  opt_all (everywhere no_equal) x'.
Proof. intros Q [|a b H] A; [exact I|]. exact (H Q A). Qed.

Lemma tidy_no_equal p e e' :
  o_assignment_style o = AArrow -> tidy o p e e' -> NoEq p e e'.
Proof.
  intros St. revert p e e'.
  apply (tidy_ind' o NoEq
    (fun _ e e' => everywhere (undirected o) e -> everywhere no_equal e')
    (fun _ el el' => opt_all (everywhere (undirected o)) el ->
                     opt_all (everywhere no_equal) el')
    (fun _ e e' => everywhere (undirected o) e -> everywhere no_equal e')); unfold NoEq.
  - intros p e S _ U. destruct (undirected_skip o p e (everywhere_self _ _ U) S).
  - intros. split; exact I.
  - intros p n op op' a a' _ IH _ [_ U]. split; [exact I|apply IH; auto].
  - intros p n l l' op op' r r' table R T IHl IHr _ _ _ [U [Ul Ur]].
    destruct table; [destruct (undirected_table o _ _ _ _ _ U (proj2 (T eq_refl)))|].
    rewrite St in R. apply restyled_arrow in R. split; [exact (proj1 R)|].
    split; [apply IHl|apply IHr]; auto.
  - intros p n l l' op op' r r' _ IHl IHr _ [U [Ul Ur]]. split; [exact I|].
    split; [apply IHl|apply IHr]; auto.
  - intros p n l l' op op' r r' _ IHl IHr _ [U [Ul Ur]]. split; [exact I|].
    split; [apply IHl|apply IHr]; auto.
  - intros p n name name' ps ps' w b b' _ IHl IHr _ _ [U [Ul Ur]]. split; [exact I|].
    split; [apply IHl|apply IHr]; auto.
  - intros p n l l' F _ [U Ul]. split; [exact I|]. exact (NoEq_all p_plain _ _ eq_refl F Ul).
  - intros p n a a' d d' IHa Od _ [U [Ua Ud]]. split; [exact I|].
    split; [apply IHa; auto|exact (NoEq_opt p_plain _ _ eq_refl Od Ud)].
  - intros p n v v' IH _ [_ U]. split; [exact I|apply IH; auto].
  - intros p w e e' IH W _ U. auto.
  - intros p n v v' s s' b b' IHv IHs IHb _ [U [Uv [Us Ub]]]. split; [exact I|].
    split; [apply IHv; auto|]. split; [apply IHs; auto|auto].
  - intros p n c c' b b' IHv IHb _ [U [Uv Ub]]. split; [exact I|]. split; [apply IHv; auto|auto].
  - intros p n b b' IHb _ [U Ub]. split; [exact I|auto].
  - intros p n l l' F _ [U Ul]. split; [exact I|].
    induction F as [|x y l l' Hx F IH]; [exact I|]. destruct Ul as [H1 H2]. split; auto.
  - intros p n v v' IH _ [_ U]. split; [exact I|apply IH; auto].
  - intros p n f f' args args' table T IHf IHa Q [U [Uf Ua]].
    destruct table; [destruct (undirected_call o _ _ _ _ U Q (T eq_refl))|].
    split; [exact I|]. split; [apply IHf|apply IHa]; auto.
  - intros p n k rc l l' F _ [U Ul]. split; [exact I|]. exact (NoEq_all p_item _ _ eq_refl F Ul).
  - intros p n rc l Q Q'. congruence.
  - intros p n nm nm' v v' sl On Ov _ [U [Un Uv]]. split; [exact I|].
    split; [exact (NoEq_opt p_plain _ _ eq_refl On Un)|exact (NoEq_opt p_plain _ _ eq_refl Ov Uv)].
  - intros p n v v' IH _ [_ U]. split; [exact I|apply IH; auto].
  - intros w n c c' t t' el el' IHc IHt IHe Fo [U [Uc [Ut Ue]]]. split; [exact I|].
    split; [apply IHc; auto|]. split; auto.
  - intros w _. exact I.
  - intros w n nl a a' Ia IH [_ U]. split; [exact I|auto].
  - intros w n nl a a' Ia IH [_ U]. split; [exact I|auto].
  - intros w b b' Bb IH U. apply IH; auto.
  - intros b b' Bb IH U. split; [exact I|]. split; [apply IH; auto|exact I].
  - intros b b' Bb IH U. apply IH; auto.
Qed.

Theorem tidy_eq_ok p e e' :
  (o_assignment_style o = AArrow -> everywhere plain_assignment e) ->
  tidy o p e e' -> eq_ok (q_eq p) e -> eq_ok (q_eq p) e'.
Proof.
  intros Pl T H. destruct (o_assignment_style o) eqn:St.
  - refine (eq_ok_le false _ _ (fun X => ltac:(discriminate)) _).
    exact (tidy_eq_arrow p e e' St T (Pl eq_refl) _ H).
  - exact (tidy_eq_equal p e e' St T H).
  - exact (tidy_eq_preserve p e e' St T _ H).
Qed.
End Assign.
