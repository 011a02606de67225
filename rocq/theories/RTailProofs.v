(** How the tokens of an expression end: no line break after them is thrown
    away for their sake. *)
From Coq Require Import List NArith Bool Arith Lia String.
From Verif Require Import Text TextFacts LineEndingSpec SettingsModel SyntaxKind FmtTree IrModel FmtSpec
  LexSpec RReadSpec FmtLineSpec FmtLineProofs RTextSpec RNestProofs RRunProofs RTreeProofs RWideProofs RSliceProofs.
Import ListNotations.
Local Open Scope N_scope.

(** Delimiters match, and no header is left waiting for its parenthesis. *)
Definition cool (l : list (token * bool)) : Prop :=
  nested l /\ forall s, opened_by (s, false) (words_of l) = Some (s, false).
Definition ends (l : list (token * bool)) : Prop :=
  nested l /\ forall s, exists xs z Y h, words_of l = xs ++ [z] /\ opened_by (s, false) xs = Some (Y, h) /\
    opened1 (Y, h) z = Some (s, false) /\ goes_on (role_of (kind_of z)) Y = false /\ is_header z = false.

Lemma words_app x y : nested y -> words_of (x ++ y) = words_of x ++ words_of y.
Proof.
  intros N. unfold words_of, marked_lexemes at 1. rewrite fold_left_app, (nested_grow y N), map_app. reflexivity.
Qed.
Lemma ends_cool l : ends l -> cool l.
Proof.
  intros [N E]. split; [exact N|]. intros s. destruct (E s) as (xs & z & Y & h & -> & O & O1 & _).
  rewrite opened_by_app, O. cbn [opened_by]. rewrite O1. reflexivity.
Qed.
Lemma cool_nil : cool [].
Proof. split; [constructor|reflexivity]. Qed.
Lemma cool_app x y : cool x -> cool y -> cool (x ++ y).
Proof.
  intros [Nx X] [Ny Y]. split; [constructor; assumption|]. intros s. rewrite (words_app x y Ny), opened_by_app, X. apply Y.
Qed.
Lemma ends_app x y : cool x -> ends y -> ends (x ++ y).
Proof.
  intros [Nx X] [Ny Y]. split; [constructor; assumption|]. intros s.
  destruct (Y s) as (xs & z & Z & h & E & O & R). exists (words_of x ++ xs), z, Z, h.
  rewrite (words_app x y Ny), E, app_assoc. split; [reflexivity|]. rewrite opened_by_app, X. auto.
Qed.
Lemma words_flat t b : flat_kind (t_kind t) = true -> words_of [(t, b)] = [t_text t].
Proof. intros F. unfold words_of. rewrite (marked_one t b F). reflexivity. Qed.
Lemma flat_cool t b : flat_token t -> role_of (t_kind t) <> RoHeader -> cool [(t, b)].
Proof.
  intros [F [K C]] R. split; [constructor; assumption|]. intros s. rewrite (words_flat t b F). cbn [opened_by].
  rewrite (flat_opened _ t F K). cbn [fst]. unfold is_header. rewrite K. destruct (role_of (t_kind t)); try reflexivity. contradiction.
Qed.
Lemma flat_ends t b : flat_token t -> role_of (t_kind t) = RoPlain -> ends [(t, b)].
Proof.
  intros [F [K C]] R. split; [constructor; assumption|]. intros s. exists [], (t_text t), s, false.
  rewrite (words_flat t b F). split; [reflexivity|]. split; [reflexivity|].
  rewrite (flat_opened _ t F K). unfold is_header. rewrite K, R. auto.
Qed.
Lemma string_ends2 a z b : t_kind a = STRING_OPEN -> t_kind z = STRING_CLOSE ->
  string_token (t_text a) (t_text z) -> ends [(a, b); (z, false)].
Proof.
  intros A Z T. split; [constructor; assumption|]. intros s. exists [], (t_text a ++ t_text z), s, false.
  unfold words_of. rewrite (marked_two a z b A Z). split; [reflexivity|]. split; [reflexivity|].
  rewrite (string_opened _ _ _ (proj1 T)). unfold is_header. rewrite (string_kind _ (is_string_app _ _ (proj1 T))). auto.
Qed.
Lemma string_ends3 a c z b : t_kind a = STRING_OPEN -> t_kind c = STRING_CONTENT -> t_kind z = STRING_CLOSE ->
  t_text c <> [] -> string_token (t_text a) (t_text z) -> ends [(a, b); (c, false); (z, false)].
Proof.
  intros A C Z Nc T. split; [constructor; assumption|]. intros s.
  exists [], (t_text a ++ t_text c ++ t_text z), s, false.
  unfold words_of. rewrite (marked_three a c z b A C Z), <- app_assoc. split; [reflexivity|]. split; [reflexivity|].
  rewrite (string_opened _ _ _ (proj1 T)). unfold is_header. rewrite (string_kind _ (is_string_app _ _ (proj1 T))). auto.
Qed.
Lemma pair_words o c b b' l : opener (t_kind o) = Some (t_text o) -> closer (t_kind c) = Some (t_kind o, t_text c) ->
  nested l -> words_of ((o, b) :: l ++ [(c, b')]) = t_text o :: words_of l ++ words_of [(c, b')].
Proof. intros O C N. unfold words_of. rewrite (pair_lexemes o c b b' l O C N). cbn [map fst]. rewrite map_app. reflexivity. Qed.
Lemma pair_ends o c b b' l : opener (t_kind o) = Some (t_text o) -> closer (t_kind c) = Some (t_kind o, t_text c) ->
  nested l -> ends ((o, b) :: l ++ [(c, b')]).
Proof.
  intros O C N. split; [constructor; assumption|]. intros s. rewrite (pair_words o c b b' l O C N).
  pose proof (nested_level l N) as Lv.
  destruct (closer_cases o c O C) as [E|[E|[E|E]]]; injection E as -> ->; cbn [t_text tk].
  - destruct (Lv (ORound :: s, false)) as [h E]. exists ($"(" :: words_of l), $")", (ORound :: s), h.
    split; [reflexivity|]. split; [exact E|]. auto.
  - destruct (Lv (OCurly :: s, false)) as [h E]. exists ($"{" :: words_of l), $"}", (OCurly :: s), h.
    split; [reflexivity|]. split; [exact E|]. auto.
  - destruct (Lv (OSquare :: s, false)) as [h E]. exists ($"[" :: words_of l), $"]", (OSquare :: s), h.
    split; [reflexivity|]. split; [exact E|]. auto.
  - destruct (Lv (OSquare :: OSquare :: s, false)) as [h E].
    exists (($"[[" :: words_of l) ++ [$"]"]), $"]", (OSquare :: s), false.
    split; [cbn [app]; rewrite <- app_assoc; reflexivity|].
    split; [|auto]. rewrite opened_by_app.
    match goal with |- context [opened_by (s, false) ?y] => change (opened_by (s, false) y) with (opened_by (OSquare :: OSquare :: s, false) (words_of l)) end.
    rewrite E. reflexivity.
Qed.
(** A header with its parenthesis. *)
Lemma header_cool t b b1 b2 l : flat_token t -> nested l -> cool ((t, b) :: (tLPAREN, b1) :: l ++ [(tRPAREN, b2)]).
Proof.
  intros [F [K C]] N.
  assert (Np : nested ((tLPAREN, b1) :: l ++ [(tRPAREN, b2)])) by (apply N_pair; try reflexivity; exact N).
  split; [change ((t, b) :: ?r) with ([(t, b)] ++ r); constructor; [constructor|]; assumption|].
  intros s. change ((t, b) :: ?r) with ([(t, b)] ++ r). rewrite (words_app _ _ Np), (words_flat t b F).
  cbn [app opened_by]. rewrite (flat_opened _ t F K). cbn [fst].
  rewrite (pair_words tLPAREN tRPAREN b1 b2 l eq_refl eq_refl N).
  pose proof (nested_level l N) as Lv. destruct (is_header (t_text t)).
  - destruct (Lv (OHead :: s, false)) as [h E].
    match goal with |- opened_by (s, true) ?y = _ => change (opened_by (s, true) y) with (opened_by (OHead :: s, false) (words_of l ++ [$")"])) end.
    rewrite opened_by_app, E. reflexivity.
  - destruct (Lv (ORound :: s, false)) as [h E].
    match goal with |- opened_by (s, false) ?y = _ => change (opened_by (s, false) y) with (opened_by (ORound :: s, false) (words_of l ++ [$")"])) end.
    rewrite opened_by_app, E. reflexivity.
Qed.

(** * Trees *)

Definition finish (e : expr) : Prop :=
  match sort_of e with
  | SoArg | SoName => cool (lines e) /\ (lines e = [] \/ off (words_of (lines e)))
  | _ => ends (lines e)
  end.
Lemma ends_off l : ends l -> off (words_of l).
Proof. intros [_ E]. destruct (E []) as (xs & z & Y & h & E1 & _ & _ & _ & H). exists xs, z. auto. Qed.
Lemma ends_settles l : ends l -> settles (words_of l).
Proof. intros [_ E]. destruct (E base) as (xs & z & Y & h & E1 & E2 & _ & G & _). exists xs, z, Y, h. auto. Qed.
Lemma finish_expr s e : sort_of e = s -> match s with SoArg | SoName => False | _ => True end -> finish e -> ends (lines e).
Proof. unfold finish. intros ->. destruct s; intros []; auto. Qed.
Lemma args_pair k l : nested l -> ends (inline (l_token k) :: l ++ [inline (r_token k)]).
Proof. intros N. destruct k; apply pair_ends; try reflexivity; exact N. Qed.
Lemma in_all {A} (P : A -> Prop) l : (forall x, In x l -> P x) -> Forall P l.
Proof. intros H. apply Forall_forall. exact H. Qed.

Lemma tree_finish P e : forall c0 c, tame P c0 c e -> shaped e -> everywhere node_read e -> finish e.
Proof.
  assert (Inw : forall x, shaped x -> everywhere node_read x -> nested (lines x)).
  { intros x A B. exact (inward_nested _ (proj1 (tree_sound x A B))). }
  assert (Com : forall s l, all_of (fun x => sort_of x = s /\ shaped x) l -> all_of (everywhere node_read) l ->
    nested (listed_by_commas (map lines l))).
  { intros s l A B. apply inward_nested, commas_read. induction l as [|x l IH]; [constructor|].
    destruct A as [[_ A1] A2], B as [B1 B2]. constructor; [exact (proj1 (tree_sound x A1 B1))|auto]. }
  induction e as [n k ts|n op a IH|n l op r IHl IHr|n l op r IHl IHr|n l op r IHl IHr
    |n name ps b IHp IHb|n items IH|n a d IHa IHd|n v IH|n c1 t el IHc IHt IHe|n nl a IH
    |n v s b IHv IHs IHb|n c1 b IHc IHb|n b IH|n es IH|n b IH|n f args IHf IHa|n k rc items IH
    |n nm v sl IHn IHv|n nm IH] using expr_ind'; intros c0 c [_ T] S [R R']; cbn [shaped node_read everywhere] in S, R, R';
    unfold finish; cbn [lines sort_of].
  - destruct ts as [|t [|u [|v [|w ts]]]]; try contradiction.
    + apply flat_ends; [apply R|apply T].
    + destruct R as [A [Z Q]]. apply string_ends2; assumption.
    + destruct R as [A [B [Z [N Q]]]]. apply string_ends3; assumption.
  - destruct R as [R _], S as [So S], T as [To [_ T]].
    change (inline op :: lines a) with ([inline op] ++ lines a). apply ends_app.
    + apply flat_cool; [exact R|]. rewrite To. discriminate.
    + exact (finish_expr _ _ So Logic.I (IH _ _ T S R')).
  - destruct R as [R _], S as [[So1 S1] [So2 S2]], R' as [R1 R2], T as [To [T1 T2]].
    apply ends_app; [exact (ends_cool _ (finish_expr _ _ So1 Logic.I (IHl _ _ T1 S1 R1)))|].
    change (inline op :: lines r) with ([inline op] ++ lines r). apply ends_app.
    + apply flat_cool; [exact R|]. rewrite To. discriminate.
    + exact (finish_expr _ _ So2 Logic.I (IHr _ _ T2 S2 R2)).
  - destruct R as [R _], S as [[So1 S1] [So2 S2]], R' as [R1 R2], T as [To [T1 T2]].
    apply ends_app; [exact (ends_cool _ (finish_expr _ _ So1 Logic.I (IHl _ _ T1 S1 R1)))|].
    change (inline op :: lines r) with ([inline op] ++ lines r). apply ends_app.
    + apply flat_cool; [exact R|]. rewrite To. discriminate.
    + exact (finish_expr _ _ So2 Logic.I (IHr _ _ T2 S2 R2)).
  - destruct R as [R _], S as [[So1 S1] [So2 S2]], R' as [R1 R2], T as [To [T1 [T2 _]]].
    apply ends_app; [exact (ends_cool _ (finish_expr _ _ So1 Logic.I (IHl _ _ T1 S1 R1)))|].
    change (inline op :: lines r) with ([inline op] ++ lines r). apply ends_app.
    + apply flat_cool; [exact R|]. rewrite To. discriminate.
    + exact (finish_expr _ _ So2 Logic.I (IHr _ _ T2 S2 R2)).
  - destruct R as [R _], S as [[So1 S1] [So2 S2]], R' as [R1 R2], T as [To [T1 T2]].
    pose proof (finish_expr _ _ So2 Logic.I (IHb _ _ T2 S2 R2)) as Fb. clear IHp IHb.
    destruct ps; try discriminate So1. change (inline name :: lines (EParams n0 items) ++ lines b)
      with ((inline name :: lines (EParams n0 items)) ++ lines b). apply ends_app; [|exact Fb].
    cbn [lines]. apply header_cool; [exact R|]. destruct R1 as [_ R1]. exact (Com SoParam items S1 R1).
  - apply pair_ends; try reflexivity. exact (Com SoParam items S R').
  - destruct S as [[So1 S1] S2], R' as [R1 R2], T as [T1 T2].
    pose proof (finish_expr _ _ So1 Logic.I (IHa _ _ T1 S1 R1)) as Fa. destruct d as [d|]; cbn [opt_list opt_all Popt] in *.
    + apply ends_app; [exact (ends_cool _ Fa)|]. destruct S2 as [So2 S2].
      exact (finish_expr _ _ So2 Logic.I (IHd _ _ T2 S2 R2)).
    + rewrite app_nil_r. exact Fa.
  - destruct S as [So S]. change (inline tEQUAL :: lines v) with ([inline tEQUAL] ++ lines v). apply ends_app.
    + apply flat_cool; [repeat split|discriminate].
    + exact (finish_expr _ _ So Logic.I (IH _ _ T S R')).
  - destruct S as [[So1 S1] [[So2 S2] S3]], R' as [R1 [R2 R3]], T as [T1 [T2 T3]].
    assert (E : inline tIF :: inline tLPAREN :: lines c1 ++ inline tRPAREN :: lines t ++ opt_list lines el
      = (inline tIF :: inline tLPAREN :: lines c1 ++ [inline tRPAREN]) ++ lines t ++ opt_list lines el)
      by (cbn [app]; rewrite <- !app_assoc; reflexivity).
    rewrite E. apply ends_app; [apply header_cool; [repeat split|exact (Inw _ S1 R1)]|].
    pose proof (finish_expr _ _ So2 Logic.I (IHt _ _ T2 S2 R2)) as Ft. destruct el as [el|]; cbn [opt_list opt_all Popt] in *.
    + apply ends_app; [exact (ends_cool _ Ft)|]. destruct S3 as [So3 S3].
      exact (finish_expr _ _ So3 Logic.I (IHe _ _ T3 S3 R3)).
    + rewrite app_nil_r. exact Ft.
  - destruct S as [So S], T as [_ T]. change (inline tELSE :: lines a) with ([inline tELSE] ++ lines a). apply ends_app.
    + apply flat_cool; [repeat split|discriminate].
    + exact (finish_expr _ _ So Logic.I (IH _ _ T S R')).
  - destruct S as [[So1 S1] [[So2 S2] [So3 S3]]], R' as [R1 [R2 R3]], T as [T1 [T2 T3]].
    assert (E : inline tFOR :: inline tLPAREN :: lines v ++ inline tIN :: lines s ++ inline tRPAREN :: lines b
      = (inline tFOR :: inline tLPAREN :: (lines v ++ inline tIN :: lines s) ++ [inline tRPAREN]) ++ lines b)
      by (cbn [app]; repeat (rewrite <- ?app_assoc; cbn [app]); reflexivity).
    rewrite E. apply ends_app; [apply header_cool; [repeat split|]|].
    + constructor; [exact (Inw _ S1 R1)|]. change (inline tIN :: lines s) with ([inline tIN] ++ lines s).
      constructor; [constructor; reflexivity|exact (Inw _ S2 R2)].
    + exact (finish_expr _ _ So3 Logic.I (IHb _ _ T3 S3 R3)).
  - destruct S as [[So1 S1] [So2 S2]], R' as [R1 R2], T as [T1 T2].
    assert (E : inline tWHILE :: inline tLPAREN :: lines c1 ++ inline tRPAREN :: lines b
      = (inline tWHILE :: inline tLPAREN :: lines c1 ++ [inline tRPAREN]) ++ lines b)
      by (cbn [app]; rewrite <- !app_assoc; reflexivity).
    rewrite E. apply ends_app; [apply header_cool; [repeat split|exact (Inw _ S1 R1)]|].
    exact (finish_expr _ _ So2 Logic.I (IHb _ _ T2 S2 R2)).
  - destruct S as [So S]. change (inline tREPEAT :: lines b) with ([inline tREPEAT] ++ lines b). apply ends_app.
    + apply flat_cool; [repeat split|discriminate].
    + exact (finish_expr _ _ So Logic.I (IH _ _ T S R')).
  - apply pair_ends; try reflexivity.
    assert (F : Forall (fun l => nested l /\ calm l /\ headed l) (map lines es)).
    { clear IH T. induction es as [|x l IHl]; [constructor|]. destruct S as [[So S] S'], R' as [R1 R2].
      destruct (tree_sound x S R1) as [X H]. constructor; [|apply IHl; assumption].
      split; [exact (inward_nested _ X)|]. split; [exact (inward_calm _ X)|]. apply H, So. }
    exact (proj1 (statements_read _ F)).
  - destruct S as [So S]. apply pair_ends; try reflexivity. exact (Inw _ S R').
  - destruct S as [[So1 S1] [So2 S2]], R' as [R1 R2], T as [T1 [T2 _]].
    apply ends_app; [exact (ends_cool _ (finish_expr _ _ So1 Logic.I (IHf _ _ T1 S1 R1)))|].
    exact (finish_expr _ _ So2 Logic.I (IHa _ _ T2 S2 R2)).
  - apply args_pair. exact (Com SoArg items S R').
  - destruct S as [S1 S2], R' as [R1 R2], T as [T1 T2].
    assert (Fn : cool (opt_list lines nm) /\ (opt_list lines nm = [] \/ off (words_of (opt_list lines nm)))).
    { destruct nm as [nm|]; cbn [opt_list opt_all Popt] in *; [|split; [exact cool_nil|left; reflexivity]].
      destruct S1 as [So S1]. pose proof (IHn _ _ T1 S1 R1) as H. unfold finish in H. rewrite So in H. exact H. }
    destruct v as [v|]; cbn [opt_list opt_all Popt] in *.
    + destruct S2 as [So S2]. pose proof (ends_app _ _ (proj1 Fn) (finish_expr _ _ So Logic.I (IHv _ _ T2 S2 R2))) as E.
      split; [exact (ends_cool _ E)|right; exact (ends_off _ E)].
    + rewrite app_nil_r. exact Fn.
  - destruct S as [So S]. pose proof (finish_expr _ _ So Logic.I (IH _ _ T S R')) as F.
    assert (Ce : cool [inline tEQUAL]) by (apply flat_cool; [repeat split|discriminate]).
    split; [exact (cool_app _ _ (ends_cool _ F) Ce)|right]. rewrite (words_app _ _ (proj1 Ce)).
    exists (words_of (lines nm)), $"=". split; reflexivity.
Qed.
