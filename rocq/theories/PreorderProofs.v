(** The parser's loops over tree-sitter's tree end and do what the recursion does. *)
From Coq Require Import List NArith Bool Arith Lia String.
From Verif Require Import Text TextFacts SyntaxKind ParseModel PreorderModel PreorderSpec.
Import ListNotations.

Lemma path_eqb_refl p : path_eqb p p = true.
Proof. induction p as [|i p IH]; cbn; [reflexivity|]. now rewrite Nat.eqb_refl. Qed.

Lemma path_eqb_long a b : List.length b < List.length a -> path_eqb a b = false.
Proof.
  revert b; induction a as [|i a IH]; intros [|j b]; cbn; intros H; try reflexivity; try lia.
  rewrite IH by lia. apply andb_false_r.
Qed.

Section NtsInd.
Variable P : nts -> Prop.
Variable H : forall n f s e cs, Forall P cs -> P (NTS n f s e cs).
Fixpoint nts_induction (t : nts) : P t :=
  match t with
  | NTS n f s e cs =>
    H n f s e cs ((fix all l := match l return Forall P l with
                                | [] => Forall_nil P
                                | c :: r => Forall_cons c (nts_induction c) (all r)
                                end) cs)
  end.
End NtsInd.

Section Sim.
Variable root : nts.
Variable src : text.
Notation node_at := (node_at root).
Notation next := (next root).
Notation walk_loop := (walk_loop root src).
Notation walk := (walk src).

Definition entering (p : path) : preorder := {| it_cursor := p; it_next := Some (Enter p) |}.
Definition leaving (p : path) : preorder := {| it_cursor := p; it_next := Some (Leave p) |}.
Definition after (p : path) : preorder := snd (next (leaving p)).
Definition at_child (p : path) (i : nat) : preorder :=
  match node_at (i :: p) with Some _ => entering (i :: p) | None => leaving p end.

Lemma next_entering p : next (entering p) = (Some (Enter p), at_child p 0).
Proof.
  unfold next, at_child, goto_first_child. cbn -[node_at].
  destruct (node_at (0 :: p)); reflexivity.
Qed.

Lemma after_child p i : after (i :: p) = at_child p (S i).
Proof.
  unfold after, next, at_child. cbn -[node_at].
  destruct (node_at (S i :: p)); reflexivity.
Qed.

Lemma skipped p : skip_subtree (at_child p 0) = leaving p.
Proof. unfold at_child. destruct (node_at (0 :: p)); reflexivity. Qed.

Definition walk_next_of (m : nat) (st : state) : res state :=
  match it_next (fst st) with
  | Some (Enter n) => walk_loop m (Some n) st
  | _ => Ok st
  end.

Lemma walk_loop_S m stop st :
  walk_loop (S m) stop st =
  match next (fst st) with
  | (None, _) => Ok st
  | (Some (Enter n), it) =>
    then_ (syntax_kind root n) (fun k =>
    then_ (handle_enter root (walk_next_of m) m n k (it, snd st)) (fun st => walk_loop m stop st))
  | (Some (Leave n), it) =>
    then_ (syntax_kind root n) (fun k =>
    then_ (handle_leave root src n k (snd st)) (fun w =>
    match stop with
    | Some n' => if path_eqb n n' then Ok (it, w) else walk_loop m stop (it, w)
    | None => walk_loop m stop (it, w)
    end))
  end.
Proof. reflexivity. Qed.

Definition runs (stop : option path) (st : state) (r : res state) : Prop :=
  comes_to (fun m => walk_loop m stop st) r.

Definition stop_ok (stop : option path) (p : path) : Prop :=
  match stop with None => True | Some c => List.length c <= List.length p end.

Definition stops (stop : option path) (p : path) : bool :=
  match stop with None => false | Some c => path_eqb p c end.

(** What the loop does at the node [t]. *)
Definition sim (t : nts) : Prop :=
  forall p stop w, node_at p = Some t -> stop_ok stop p ->
  match walk (conv t) w with
  | None => runs stop (entering p, w) Panic
  | Some w' =>
    if stops stop p then runs stop (entering p, w) (Ok (after p, w'))
    else forall r, runs stop (after p, w') r -> runs stop (entering p, w) r
  end.

Lemma sim_walk_next t p w :
  sim t -> node_at p = Some t ->
  comes_to (fun m => walk_next_of m (entering p, w))
    (match walk (conv t) w with None => Panic | Some w' => Ok (after p, w') end).
Proof.
  intros T A. specialize (T p (Some p) w A (le_n _)). cbn [stops] in T. rewrite path_eqb_refl in T.
  unfold walk_next_of. cbn [fst it_next entering].
  destruct (walk (conv t) w); exact T.
Qed.

(** ** The children of a node, in the main loop *)

Definition below (t : nts) (i : nat) (l : list nts) : Prop :=
  forall j, nth_error (n_children t) (i + j) = nth_error l j.

Lemma below_all t : below t 0 (n_children t).
Proof. intros j. reflexivity. Qed.

Lemma below_tail t i c l : below t i (c :: l) -> below t (S i) l.
Proof. intros B j. specialize (B (S j)). now rewrite Nat.add_succ_r in B. Qed.

Lemma child_at t p i c l : node_at p = Some t -> below t i (c :: l) -> node_at (i :: p) = Some c.
Proof. intros A B. cbn. rewrite A. specialize (B 0). rewrite Nat.add_0_r in B. exact B. Qed.

Lemma no_child t p i : node_at p = Some t -> below t i [] -> node_at (i :: p) = None.
Proof. intros A B. cbn. rewrite A. specialize (B 0). rewrite Nat.add_0_r in B. exact B. Qed.

Lemma stop_deeper stop p i : stop_ok stop p -> stop_ok stop (i :: p) /\ stops stop (i :: p) = false.
Proof.
  destruct stop as [c|]; cbn [stop_ok stops]; [|auto]. intros L. split; [cbn; lia|].
  apply path_eqb_long. cbn. lia.
Qed.

Lemma children_loop t p stop :
  node_at p = Some t -> stop_ok stop p ->
  forall l i w, below t i l -> Forall sim l ->
  match walk_all walk (map conv l) w with
  | None => runs stop (at_child p i, w) Panic
  | Some w' => forall r, runs stop (leaving p, w') r -> runs stop (at_child p i, w) r
  end.
Proof.
  intros A O.
  induction l as [|c l IH]; intros i w B F.
  - cbn. unfold at_child. rewrite (no_child t p i A B). auto.
  - inversion_clear F as [|? ? Fc Fl]. pose proof (child_at _ _ _ _ _ A B) as AC.
    destruct (stop_deeper stop p i O) as [O' N'].
    specialize (Fc (i :: p) stop w AC O'). rewrite N' in Fc.
    assert (E : at_child p i = entering (i :: p)) by (unfold at_child; now rewrite AC).
    rewrite E. cbn [map walk_all].
    destruct (walk (conv c) w) as [w1|]; cbn [bind]; [|exact Fc].
    specialize (IH (S i) w1 (below_tail _ _ _ _ B) Fl).
    rewrite after_child in Fc.
    destruct (walk_all walk (map conv l) w1) as [w2|]; [|now apply Fc].
    intros r R. apply Fc, IH, R.
Qed.

(** ** The loops of the handlers *)

Section Fold.
Context {F : Type}.
Variable step : F -> nts -> walker -> option (F * walker).
Fixpoint fold_steps (l : list nts) (f : F) (w : walker) : option (F * walker) :=
  match l with
  | [] => Some (f, w)
  | c :: r => bind (step f c w) (fun x => fold_steps r (fst x) (snd x))
  end.

Variable body : nat -> path -> F -> state -> res (F * state).
Definition does (c : nts) : Prop :=
  forall p f w, node_at p = Some c ->
  comes_to (fun m => body m p f (entering p, w))
    (match step f c w with None => Panic | Some (f', w') => Ok (f', (after p, w')) end).

Lemma while_children t p :
  node_at p = Some t ->
  forall l i f w, below t i l -> Forall does l ->
  exists b, forall m n, b <= m -> b <= n ->
    while_peek (body m) n p f (at_child p i, w) =
    match fold_steps l f w with None => Panic | Some (f', w') => Ok (f', (leaving p, w')) end.
Proof.
  intros A. induction l as [|c l IH]; intros i f w B D.
  - exists 1. intros m n _ Hn. destruct n as [|n]; [lia|]. unfold at_child.
    rewrite (no_child t p i A B). cbn. now rewrite path_eqb_refl.
  - inversion_clear D as [|? ? Dc Dl]. pose proof (child_at _ _ _ _ _ A B) as AC.
    destruct (Dc (i :: p) f w AC) as [b1 H1].
    assert (E : at_child p i = entering (i :: p)) by (unfold at_child; now rewrite AC).
    rewrite E. cbn [fold_steps].
    destruct (step f c w) as [[f1 w1]|]; cbn [bind fst snd].
    + destruct (IH (S i) f1 w1 (below_tail _ _ _ _ B) Dl) as [b2 H2].
      exists (S (b1 + b2)). intros m n Hm Hn. destruct n as [|n]; [lia|].
      cbn [while_peek fst it_next entering]. change {| it_cursor := i :: p; it_next := Some (Enter (i :: p)) |} with (entering (i :: p)).
      rewrite H1 by lia. cbn [then_ fst snd]. rewrite after_child. apply H2; lia.
    + exists (S b1). intros m n Hm Hn. destruct n as [|n]; [lia|].
      cbn [while_peek fst it_next entering]. change {| it_cursor := i :: p; it_next := Some (Enter (i :: p)) |} with (entering (i :: p)).
      rewrite H1 by lia. reflexivity.
Qed.
End Fold.

Definition kindc (c : nts) : kind := ts_kind (conv c).
Definition go {F} (f : F) (g : walker -> walker) (c : nts) (w : walker) : option (F * walker) :=
  bind (walk (conv c) w) (fun w => Some (f, g w)).

Definition parameters_step (f : unit) (c : nts) (w : walker) : option (unit * walker) :=
  match kindc c with
  | L_PAREN => go f (enter R_PARAMETER_LIST) c w
  | R_PAREN => go f (fun w => w) c (leave w)
  | R_PARAMETER | COMMA | COMMENT => go f (fun w => w) c w
  | _ => None
  end.
Definition parameter_step (f : bool) (c : nts) (w : walker) : option (bool * walker) :=
  match kindc c with
  | EQUAL => go true (fun w => w) c (enter R_PARAMETER_DEFAULT w)
  | _ => go f (fun w => w) c w
  end.
Definition if_step (f : bool) (c : nts) (w : walker) : option (bool * walker) :=
  match kindc c with
  | ELSE_KW => go true (fun w => w) c (enter R_ELSE_CLAUSE w)
  | _ => go f (fun w => w) c w
  end.
Definition braced_step (f : unit) (c : nts) (w : walker) : option (unit * walker) :=
  match kindc c with
  | L_CURLY => go f (enter R_EXPRESSION_LIST) c w
  | R_CURLY => go f (fun w => w) c (leave w)
  | _ => go f (fun w => w) c w
  end.
Definition arguments_step (open close : kind) (last : kind) (c : nts) (w : walker) : option (kind * walker) :=
  let k := kindc c in
  if kind_eqb k open then go open (enter R_ARGUMENT_LIST) c w
  else if kind_eqb k close then go close (fun w => w) c (leave (handle_hole_before_close last w))
  else match k with
  | COMMA => go COMMA (fun w => w) c (handle_hole_before_comma last open w)
  | R_ARGUMENT => go R_ARGUMENT (fun w => w) c w
  | COMMENT => go last (fun w => w) c w
  | _ => None
  end.
Definition argument_step (f : bool) (c : nts) (w : walker) : option (bool * walker) :=
  if kind_eqb (kindc c) EQUAL then go true leave c w
  else go f (fun w => w) c (if negb f && is_name (conv c) then enter R_ARGUMENT_NAME_CLAUSE w else w).
Definition call_step (ak : kind) (f : unit) (c : nts) (w : walker) : option (unit * walker) :=
  match ts_field (conv c) with
  | F_arguments => bind (handle_arguments walk ak (ts_children (conv c)) w) (fun w => Some (f, w))
  | _ => go f (fun w => w) c w
  end.

(** *** The loops of the recursion are these steps in turn *)

Ltac steps IH := unfold go; repeat match goal with
  | |- context [bind (walk ?c ?w) _] => destruct (walk c w); cbn [bind fst snd]
  end; try reflexivity; try apply IH.

Lemma parameters_fold l w :
  parameters_loop walk (map conv l) w =
  bind (fold_steps parameters_step l tt w) (fun x => Some (snd x)).
Proof.
  revert w. induction l as [|c l IH]; intros w; [reflexivity|].
  cbn [map parameters_loop fold_steps]. unfold parameters_step at 1, kindc.
  destruct (ts_kind (conv c)); try reflexivity; steps IH.
Qed.

Lemma braced_fold l w :
  braced_loop walk (map conv l) w = bind (fold_steps braced_step l tt w) (fun x => Some (snd x)).
Proof.
  revert w. induction l as [|c l IH]; intros w; [reflexivity|].
  cbn [map braced_loop fold_steps]. unfold braced_step at 1, kindc.
  destruct (ts_kind (conv c)); steps IH.
Qed.

Lemma parameter_fold l f w :
  parameter_loop walk (map conv l) f w =
  bind (fold_steps parameter_step l f w) (fun x => Some (if fst x then leave (snd x) else snd x)).
Proof.
  revert f w. induction l as [|c l IH]; intros f w; [reflexivity|].
  cbn [map parameter_loop fold_steps]. unfold parameter_step at 1, kindc.
  destruct (ts_kind (conv c)); steps IH.
Qed.

Lemma if_fold l f w :
  if_loop walk (map conv l) f w =
  bind (fold_steps if_step l f w) (fun x => Some (if fst x then leave (snd x) else snd x)).
Proof.
  revert f w. induction l as [|c l IH]; intros f w; [reflexivity|].
  cbn [map if_loop fold_steps]. unfold if_step at 1, kindc.
  destruct (ts_kind (conv c)); steps IH.
Qed.

Lemma arguments_fold open close l f w :
  arguments_loop walk open close (map conv l) f w =
  bind (fold_steps (arguments_step open close) l f w) (fun x => Some (snd x)).
Proof.
  revert f w. induction l as [|c l IH]; intros f w; [reflexivity|].
  cbn [map arguments_loop fold_steps]. unfold arguments_step at 1, kindc. cbn zeta.
  destruct (kind_eqb (ts_kind (conv c)) open); [steps IH|].
  destruct (kind_eqb (ts_kind (conv c)) close); [steps IH|].
  destruct (ts_kind (conv c)); try reflexivity; steps IH.
Qed.

Lemma argument_fold l f w :
  argument_loop walk (map conv l) f w =
  bind (fold_steps argument_step l f w) (fun x => Some (snd x)).
Proof.
  revert f w. induction l as [|c l IH]; intros f w; [reflexivity|].
  cbn [map argument_loop fold_steps]. unfold argument_step at 1, kindc.
  destruct (kind_eqb (ts_kind (conv c)) EQUAL); steps IH.
Qed.

(** *** The bodies of the loops are these steps *)

Lemma kind_at p c : node_at p = Some c -> syntax_kind root p = or_panic (node_syntax_kind (n_name c)).
Proof. intros A. unfold syntax_kind. now rewrite A. Qed.

Lemma kindc_some c k : node_syntax_kind (n_name c) = Some k -> kindc c = k.
Proof. destruct c. cbn. unfold kindc, kind_of. cbn. unfold kind_of. now intros ->. Qed.

Lemma unknown c w : node_syntax_kind (n_name c) = None -> walk (conv c) w = None.
Proof. destruct c. cbn. intros E. unfold kind_of. now rewrite E. Qed.

Lemma kindc_none c : node_syntax_kind (n_name c) = None -> kindc c = R_UNMAPPED.
Proof. destruct c. cbn. intros E. unfold kindc. cbn. unfold kind_of. now rewrite E. Qed.

(** A body that walks the next node once, from [w1], and then does [g]. *)
Lemma does_go {F} c p (f : F) g w1 :
  sim c -> node_at p = Some c ->
  comes_to (fun m => then_ (walk_next_of m (entering p, w1)) (fun st => Ok (f, on_walker g st)))
    (match go f g c w1 with None => Panic | Some (f', w') => Ok (f', (after p, w')) end).
Proof.
  intros T A. destruct (sim_walk_next c p w1 T A) as [b H]. exists b. intros m Hm. rewrite H by exact Hm.
  unfold go. destruct (walk (conv c) w1); reflexivity.
Qed.

Lemma does_go_id {F} c p (f : F) w1 :
  sim c -> node_at p = Some c ->
  comes_to (fun m => then_ (walk_next_of m (entering p, w1)) (fun st => Ok (f, st)))
    (match go f (fun w => w) c w1 with None => Panic | Some (f', w') => Ok (f', (after p, w')) end).
Proof.
  intros T A. destruct (sim_walk_next c p w1 T A) as [b H]. exists b. intros m Hm. rewrite H by exact Hm.
  unfold go. destruct (walk (conv c) w1); reflexivity.
Qed.

Lemma panics {A} (f : nat -> res A) : (forall m, f m = Panic) -> comes_to f Panic.
Proof. intros H. exists 0. intros m _. apply H. Qed.

Lemma same_end {A} (f g : nat -> res A) r : (forall m, f m = g m) -> comes_to g r -> comes_to f r.
Proof. intros E [n H]. exists n. intros m L. rewrite E. now apply H. Qed.

Ltac by_kind c A :=
  destruct (node_syntax_kind (n_name c)) as [k|] eqn:EK;
  [ eapply same_end;
    [ intros m; rewrite (kind_at _ _ A), EK; cbn [or_panic then_]; reflexivity | ];
    rewrite ?(kindc_some _ _ EK)
  | eapply same_end;
    [ intros m; rewrite (kind_at _ _ A), EK; cbn [or_panic then_]; reflexivity | ];
    rewrite ?(kindc_none _ EK) ].

Ltac unknown_ends EK := unfold go; rewrite ?(unknown _ _ EK); apply panics; reflexivity.
Ltac goes T A :=
  first [ apply (does_go_id _ _ _ _ T A) | apply (does_go _ _ _ _ _ T A) | apply panics; reflexivity ].

Lemma parameters_does c : sim c -> does parameters_step (fun m => parameters_body root (walk_next_of m)) c.
Proof.
  intros T p f w A. unfold parameters_body, parameters_step. by_kind c A; [|unknown_ends EK].
  destruct k; goes T A.
Qed.

Lemma parameter_does c : sim c -> does parameter_step (fun m => parameter_body root (walk_next_of m)) c.
Proof.
  intros T p f w A. unfold parameter_body, parameter_step. by_kind c A; [|unknown_ends EK].
  destruct k; goes T A.
Qed.

Lemma if_does c : sim c -> does if_step (fun m => if_body root (walk_next_of m)) c.
Proof.
  intros T p f w A. unfold if_body, if_step. by_kind c A; [|unknown_ends EK].
  destruct k; goes T A.
Qed.

Lemma braced_does c : sim c -> does braced_step (fun m => braced_body root (walk_next_of m)) c.
Proof.
  intros T p f w A. unfold braced_body, braced_step. by_kind c A; [|unknown_ends EK].
  destruct k; goes T A.
Qed.

Lemma arguments_does open close c :
  sim c -> does (arguments_step open close) (fun m => arguments_body root (walk_next_of m) open close) c.
Proof.
  intros T p f w A. unfold arguments_body, arguments_step. by_kind c A.
  - cbn zeta. destruct (kind_eqb k open); [goes T A|].
    destruct (kind_eqb k close); [goes T A|].
    destruct k; goes T A.
  - cbn zeta. unfold go. rewrite !(unknown _ _ EK). cbn [bind].
    destruct (kind_eqb _ open); [apply panics; reflexivity|].
    destruct (kind_eqb _ close); apply panics; reflexivity.
Qed.

Lemma field_at p c : node_at p = Some c -> peek_field_name root (entering p) = n_field c.
Proof. intros A. unfold peek_field_name. cbn [it_cursor entering]. now rewrite A. Qed.

Lemma argument_does c : sim c -> does argument_step (fun m => argument_body root (walk_next_of m)) c.
Proof.
  intros T p f w A. unfold argument_body, argument_step. by_kind c A.
  - destruct (is_name_kind k) eqn:NK.
    + assert (E : is_name (conv c) = match n_field c with Some x => text_eqb x $"name" | None => false end).
      { unfold is_name. change (ts_kind (conv c)) with (kindc c). rewrite (kindc_some _ _ EK), NK.
        destruct c as [n fd s e cs]. cbn [conv ts_field n_field field_of].
        destruct fd as [x|]; [|reflexivity]. cbn [field_of].
        destruct (text_eqb x $"arguments") eqn:E1.
        - apply text_eqb_eq in E1. subst x. reflexivity.
        - destruct (text_eqb x $"name"); reflexivity. }
      rewrite E. eapply same_end.
      { intros m. cbn [fst]. rewrite (field_at _ _ A). reflexivity. }
      destruct k; try discriminate NK; cbn [kind_eqb];
        match goal with |- context [if ?b then on_walker _ _ else _] => destruct b end; goes T A.
    + assert (E : is_name (conv c) = false).
      { unfold is_name. change (ts_kind (conv c)) with (kindc c). now rewrite (kindc_some _ _ EK), NK. }
      rewrite E, andb_false_r. destruct k; try discriminate NK; cbn; goes T A.
  - unknown_ends EK.
Qed.

Lemma call_kinds k ak : class_of k = C_call ak ->
  (match ak with
   | R_CALL_ARGUMENTS => Ok (L_PAREN, R_PAREN)
   | R_SUBSET_ARGUMENTS => Ok (L_BRACK, R_BRACK)
   | R_SUBSET2_ARGUMENTS => Ok (L_BRACK2, R_BRACK2)
   | _ => Panic
   end) = Ok (delimiters ak).
Proof. destruct k; cbn; intros E; inversion E; reflexivity. Qed.

Lemma call_does k ak c :
  class_of k = C_call ak -> sim c -> Forall sim (n_children c) ->
  does (call_step ak) (fun m => call_body root (walk_next_of m) m ak) c.
Proof.
  intros CK T TC p f w A. unfold call_body.
  eapply same_end; [intros m; cbn [fst]; rewrite (field_at _ _ A); reflexivity|].
  unfold call_step.
  assert (E : ts_field (conv c) = field_of (n_field c)) by (now destruct c). rewrite E. unfold field_of.
  destruct (n_field c) as [x|]; [|goes T A].
  destruct (text_eqb x $"arguments"); [|destruct (text_eqb x $"name"); goes T A].
  unfold handle_arguments_loop. cbn [fst snd].
  eapply same_end; [intros m; rewrite next_entering, (call_kinds _ _ CK); cbn [then_]; reflexivity|].
  destruct (delimiters ak) as [open close] eqn:ED. cbn [fst snd].
  assert (D : Forall (does (arguments_step open close) (fun m => arguments_body root (walk_next_of m) open close))
                     (n_children c)).
  { eapply Forall_impl; [|exact TC]. intros. now apply arguments_does. }
  destruct (while_children _ _ c p A (n_children c) 0 R_BOGUS (enter ak w) (below_all c) D) as [b H].
  exists b. intros m L. rewrite (H m m L L).
  unfold handle_arguments. rewrite ED.
  assert (EC : ts_children (conv c) = map conv (n_children c)) by (now destruct c). rewrite EC, arguments_fold.
  destruct (fold_steps _ _ _ _) as [[f' w']|]; cbn [bind then_ fst snd]; [|reflexivity].
  change (next (leaving p)) with (Some (Leave p), after p). cbn iota. now rewrite path_eqb_refl.
Qed.

Lemma call_fold ak l w :
  (fix call_loop (l : list ts) (w : walker) : option walker :=
     match l with
     | [] => Some w
     | c :: r =>
       match c with
       | TS _ F_arguments _ _ cs => bind (handle_arguments walk ak cs w) (call_loop r)
       | _ => bind (walk c w) (call_loop r)
       end
     end) (map conv l) w = bind (fold_steps (call_step ak) l tt w) (fun x => Some (snd x)).
Proof.
  revert w. induction l as [|c l IH]; intros w; [reflexivity|].
  cbn [map fold_steps]. unfold call_step at 1.
  destruct (conv c) as [k f s e cs] eqn:EC. cbn [ts_field ts_children].
  destruct f; unfold go; rewrite ?EC.
  - destruct (walk _ w); cbn [bind fst snd]; [apply IH|reflexivity].
  - destruct (handle_arguments walk ak cs w); cbn [bind fst snd]; [apply IH|reflexivity].
  - destruct (walk _ w); cbn [bind fst snd]; [apply IH|reflexivity].
Qed.

(** ** A node *)

Lemma enters p stop w r t k it' w' :
  node_at p = Some t -> node_syntax_kind (n_name t) = Some k ->
  comes_to (fun m => handle_enter root (walk_next_of m) m p k (at_child p 0, w)) (Ok (it', w')) ->
  runs stop (it', w') r -> runs stop (entering p, w) r.
Proof.
  intros A EK [b1 H1] [b2 H2]. exists (S (b1 + b2)). intros m L. destruct m as [|m]; [lia|].
  rewrite walk_loop_S. cbn [fst snd]. rewrite next_entering, (kind_at _ _ A), EK. cbn [or_panic then_].
  rewrite H1 by lia. cbn [then_]. apply H2. lia.
Qed.

Lemma enter_panics p stop w t k :
  node_at p = Some t -> node_syntax_kind (n_name t) = Some k ->
  comes_to (fun m => handle_enter root (walk_next_of m) m p k (at_child p 0, w)) Panic ->
  runs stop (entering p, w) Panic.
Proof.
  intros A EK [b1 H1]. exists (S b1). intros m L. destruct m as [|m]; [lia|].
  rewrite walk_loop_S. cbn [fst snd]. rewrite next_entering, (kind_at _ _ A), EK. cbn [or_panic then_].
  rewrite H1 by lia. reflexivity.
Qed.

Definition left_as (p : path) (stop : option path) (o : option walker) (r : res state) : Prop :=
  match o with
  | None => r = Panic
  | Some w' => if stops stop p then r = Ok (after p, w') else runs stop (after p, w') r
  end.

Lemma leaves_node p stop w r t k o :
  node_at p = Some t -> node_syntax_kind (n_name t) = Some k ->
  handle_leave root src p k w = result o ->
  left_as p stop o r -> runs stop (leaving p, w) r.
Proof.
  intros A EK H L. unfold left_as in L.
  assert (S1 : forall m, walk_loop (S m) stop (leaving p, w) =
     match o with None => Panic | Some w' => if stops stop p then Ok (after p, w') else walk_loop m stop (after p, w') end).
  { intros m. rewrite walk_loop_S. cbn [fst snd]. change (next (leaving p)) with (Some (Leave p), after p).
    cbn iota. rewrite (kind_at _ _ A), EK. cbn [or_panic then_]. rewrite H.
    destruct o; cbn [result then_]; [|reflexivity]. unfold stops. destruct stop; reflexivity. }
  destruct o as [w'|].
  - destruct (stops stop p).
    + subst r. exists 1. intros m Lm. destruct m; [lia|]. apply S1.
    + destruct L as [b Hb]. exists (S b). intros m Lm. destruct m; [lia|]. rewrite S1. apply Hb. lia.
  - subst r. exists 1. intros m Lm. destruct m; [lia|]. apply S1.
Qed.

(** The claim of [sim], with the result of leaving the node. *)
Definition sim_as (t : nts) (p : path) (stop : option path) (w : walker) : Prop :=
  forall r, left_as p stop (walk (conv t) w) r -> runs stop (entering p, w) r.

Lemma sim_of t p stop w :
  sim_as t p stop w ->
  match walk (conv t) w with
  | None => runs stop (entering p, w) Panic
  | Some w' =>
    if stops stop p then runs stop (entering p, w) (Ok (after p, w'))
    else forall r, runs stop (after p, w') r -> runs stop (entering p, w) r
  end.
Proof.
  unfold sim_as, left_as. intros H. destruct (walk (conv t) w) as [w'|]; [|now apply H].
  destruct (stops stop p); [now apply H|exact H].
Qed.

Lemma ranged p t f : node_at p = Some t -> with_range root p f = result (f (n_start t) (n_end t)).
Proof. intros A. unfold with_range. rewrite A. reflexivity. Qed.

Lemma comes_now {A} (a : res A) : comes_to (fun _ => a) a.
Proof. exists 0. reflexivity. Qed.

(** A node whose children the main loop walks. *)
Lemma walked t p stop w w0 k fin :
  node_at p = Some t -> stop_ok stop p -> Forall sim (n_children t) ->
  node_syntax_kind (n_name t) = Some k ->
  (forall m, handle_enter root (walk_next_of m) m p k (at_child p 0, w) = Ok (at_child p 0, w0)) ->
  (forall w', handle_leave root src p k w' = result (fin w')) ->
  walk (conv t) w = bind (walk_all walk (map conv (n_children t)) w0) fin ->
  sim_as t p stop w.
Proof.
  intros A O F EK HE HL W r. rewrite W. intros L.
  eapply (enters p stop w r t k _ w0 A EK); [exists 0; intros m _; apply HE|].
  pose proof (children_loop t p stop A O (n_children t) 0 w0 (below_all t) F) as C.
  destruct (walk_all walk (map conv (n_children t)) w0) as [w1|]; cbn [bind] in L.
  - apply C. eapply leaves_node; eauto.
  - cbn in L. subst r. exact C.
Qed.

(** A node whose handler walks the children. *)
Lemma handled {F} t p stop w w0 k (f0 : F) step body (close : F -> walker -> walker) :
  node_at p = Some t -> Forall (does step body) (n_children t) ->
  node_syntax_kind (n_name t) = Some k ->
  (forall m, handle_enter root (walk_next_of m) m p k (at_child p 0, w) =
     then_ (while_peek (body m) m p f0 (at_child p 0, w0)) (fun r =>
     Ok (fst (snd r), close (fst r) (snd (snd r))))) ->
  (forall w', handle_leave root src p k w' = Ok (leave w')) ->
  walk (conv t) w = bind (bind (fold_steps step (n_children t) f0 w0) (fun x => Some (close (fst x) (snd x))))
                      (fun w => Some (leave w)) ->
  sim_as t p stop w.
Proof.
  intros A D EK HE HL W r. rewrite W. intros L.
  destruct (while_children step body t p A (n_children t) 0 f0 w0 (below_all t) D) as [b H].
  destruct (fold_steps step (n_children t) f0 w0) as [[f1 w1]|]; cbn [bind fst snd] in L.
  - eapply (enters p stop w r t k (leaving p) (close f1 w1) A EK).
    + exists b. intros m Lm. rewrite HE, (H m m Lm Lm). reflexivity.
    + eapply (leaves_node p stop _ r t k (Some (leave (close f1 w1))) A EK); [apply HL|exact L].
  - cbn in L. subst r. eapply enter_panics; [exact A|exact EK|].
    exists b. intros m Lm. rewrite HE, (H m m Lm Lm). reflexivity.
Qed.

(** A node whose children are skipped. *)
Lemma skipping t p stop w w0 k o :
  node_at p = Some t -> node_syntax_kind (n_name t) = Some k ->
  (forall m, handle_enter root (walk_next_of m) m p k (at_child p 0, w) = Ok (skip_subtree (at_child p 0), w0)) ->
  handle_leave root src p k w0 = result o ->
  walk (conv t) w = o ->
  sim_as t p stop w.
Proof.
  intros A EK HE HL W r. rewrite W. intros L.
  eapply (enters p stop w r t k (leaving p) w0 A EK).
  - exists 0. intros m _. now rewrite HE, skipped.
  - eapply leaves_node; eauto.
Qed.

Definition deep (t : nts) : Prop := sim t /\ Forall sim (n_children t).

Lemma sims t : deep t.
Proof.
  induction t as [n f s e cs IH] using nts_induction.
  assert (FC : Forall sim cs) by (eapply Forall_impl; [|exact IH]; intros c D; exact (proj1 D)).
  split; [|exact FC]. intros p stop w A O. apply sim_of.
  set (t := NTS n f s e cs) in *.
  destruct (node_syntax_kind n) as [k|] eqn:EK.
  2:{ intros r L. rewrite (unknown t w EK) in L. cbn in L. subst r.
      exists 1. intros m Lm. destruct m; [lia|]. rewrite walk_loop_S. cbn [fst snd].
      rewrite next_entering, (kind_at _ _ A). cbn [n_name t]. rewrite EK. reflexivity. }
  assert (KT : kind_of n = k) by (unfold kind_of; now rewrite EK).
  destruct (class_of k) as [ | | ak | | | | | | lit | lit | | | | | ] eqn:CK.
  - eapply (walked t p stop w _ k (handle_root_leave src e) A O FC EK).
    + intros m. unfold handle_enter. now rewrite CK.
    + intros w'. unfold handle_leave. rewrite CK. now rewrite (ranged _ _ _ A).
    + cbn [conv t walk]. rewrite KT, CK. reflexivity.
  - eapply (walked t p stop w _ k (fun w => Some (leave w)) A O FC EK).
    + intros m. unfold handle_enter. now rewrite CK.
    + intros w'. unfold handle_leave. now rewrite CK.
    + cbn [conv t walk]. rewrite KT, CK. reflexivity.
  - eapply (handled t p stop w (enter k w) k tt (call_step ak) (fun m => call_body root (walk_next_of m) m ak)
              (fun _ w => w) A); [|exact EK| | |].
    + eapply Forall_impl; [|exact IH]. intros c [Tc TCc]. now apply (call_does k).
    + intros m. unfold handle_enter. rewrite CK. destruct (while_peek _ _ _ _ _) as [| |[? [? ?]]]; reflexivity.
    + intros w'. unfold handle_leave. now rewrite CK.
    + cbn [conv t walk]. rewrite KT, CK, call_fold. reflexivity.
  - eapply (handled t p stop w (enter k w) k tt parameters_step (fun m => parameters_body root (walk_next_of m))
              (fun _ w => w) A); [|exact EK| | |].
    + eapply Forall_impl; [|exact FC]. apply parameters_does.
    + intros m. unfold handle_enter. rewrite CK. destruct (while_peek _ _ _ _ _) as [| |[? [? ?]]]; reflexivity.
    + intros w'. unfold handle_leave. now rewrite CK.
    + cbn [conv t walk]. rewrite KT, CK, parameters_fold. reflexivity.
  - eapply (handled t p stop w (enter k w) k false parameter_step (fun m => parameter_body root (walk_next_of m))
              (fun f w => if f then leave w else w) A); [|exact EK| | |].
    + eapply Forall_impl; [|exact FC]. apply parameter_does.
    + intros m. unfold handle_enter. rewrite CK. destruct (while_peek _ _ _ _ _) as [| |[[] [? ?]]]; reflexivity.
    + intros w'. unfold handle_leave. now rewrite CK.
    + cbn [conv t walk]. rewrite KT, CK, parameter_fold. reflexivity.
  - eapply (handled t p stop w (enter k w) k false if_step (fun m => if_body root (walk_next_of m))
              (fun f w => if f then leave w else w) A); [|exact EK| | |].
    + eapply Forall_impl; [|exact FC]. apply if_does.
    + intros m. unfold handle_enter. rewrite CK. destruct (while_peek _ _ _ _ _) as [| |[[] [? ?]]]; reflexivity.
    + intros w'. unfold handle_leave. now rewrite CK.
    + cbn [conv t walk]. rewrite KT, CK, if_fold. reflexivity.
  - eapply (handled t p stop w (enter k w) k false argument_step (fun m => argument_body root (walk_next_of m))
              (fun _ w => w) A); [|exact EK| | |].
    + eapply Forall_impl; [|exact FC]. apply argument_does.
    + intros m. unfold handle_enter. rewrite CK. destruct (while_peek _ _ _ _ _) as [| |[? [? ?]]]; reflexivity.
    + intros w'. unfold handle_leave. now rewrite CK.
    + cbn [conv t walk]. rewrite KT, CK, argument_fold. reflexivity.
  - eapply (handled t p stop w (enter k w) k tt braced_step (fun m => braced_body root (walk_next_of m))
              (fun _ w => w) A); [|exact EK| | |].
    + eapply Forall_impl; [|exact FC]. apply braced_does.
    + intros m. unfold handle_enter. rewrite CK. destruct (while_peek _ _ _ _ _) as [| |[? [? ?]]]; reflexivity.
    + intros w'. unfold handle_leave. now rewrite CK.
    + cbn [conv t walk]. rewrite KT, CK, braced_fold. reflexivity.
  - eapply (walked t p stop w _ k (fun w => bind (handle_token src s e lit w) (fun w => Some (leave w))) A O FC EK).
    + intros m. unfold handle_enter. now rewrite CK.
    + intros w'. unfold handle_leave. rewrite CK, (ranged _ _ _ A). cbn [n_start n_end t].
      destruct (handle_token src s e lit w'); reflexivity.
    + cbn [conv t walk]. rewrite KT, CK. reflexivity.
  - eapply (skipping t p stop w (enter k w) k _ A EK).
    + intros m. unfold handle_enter. now rewrite CK.
    + unfold handle_leave. rewrite CK, (ranged _ _ _ A). cbn [n_start n_end t].
      instantiate (1 := bind (handle_token src s e lit (enter k w)) (fun w => Some (leave w))).
      destruct (handle_token src s e lit (enter k w)); reflexivity.
    + cbn [conv t walk]. rewrite KT, CK. reflexivity.
  - eapply (walked t p stop w _ k (fun w => Some (leave w)) A O FC EK).
    + intros m. unfold handle_enter. now rewrite CK.
    + intros w'. unfold handle_leave. now rewrite CK.
    + cbn [conv t walk]. rewrite KT, CK. reflexivity.
  - eapply (walked t p stop w _ k (handle_token src s e k) A O FC EK).
    + intros m. unfold handle_enter. now rewrite CK.
    + intros w'. unfold handle_leave. rewrite CK. now rewrite (ranged _ _ _ A).
    + cbn [conv t walk]. rewrite KT, CK. reflexivity.
  - eapply (skipping t p stop w w k _ A EK).
    + intros m. unfold handle_enter. now rewrite CK.
    + unfold handle_leave. rewrite CK, (ranged _ _ _ A). cbn [n_start n_end t]. reflexivity.
    + cbn [conv t walk]. rewrite KT, CK. reflexivity.
  - eapply (walked t p stop w _ k (handle_comment_leave src s e) A O FC EK).
    + intros m. unfold handle_enter. now rewrite CK.
    + intros w'. unfold handle_leave. rewrite CK. now rewrite (ranged _ _ _ A).
    + cbn [conv t walk]. rewrite KT, CK. reflexivity.
  - intros r L. cbn [conv t walk] in L. rewrite KT, CK in L. cbn in L. subst r.
    eapply enter_panics; [exact A|exact EK|]. apply panics. intros m. unfold handle_enter. now rewrite CK.
Qed.
End Sim.

Theorem walk_tree_walks src t :
  comes_to (walk_tree t src) (result (walk src (conv t) new_walker)).
Proof.
  destruct (sims t src t) as [T _]. specialize (T [] None new_walker eq_refl I). cbn [stops] in T.
  unfold walk_tree. destruct (walk src (conv t) new_walker) as [w'|].
  - destruct (T (Ok ({| it_cursor := []; it_next := None |}, w'))) as [b H].
    { exists 1. intros [|m] L; [lia|]. reflexivity. }
    exists b. intros m L. change new_preorder with (entering []). now rewrite H.
  - destruct T as [b H]. exists b. intros m L. change new_preorder with (entering []). now rewrite H.
Qed.

Theorem parse_tree_parses src has_error t :
  comes_to (fun m => parse_tree m src has_error t) (result (parse src has_error (conv t))).
Proof.
  unfold parse_tree, parse. destruct has_error; [exists 0; reflexivity|].
  destruct (walk_tree_walks src t) as [b H]. exists b. intros m L. rewrite (H m L).
  destruct (walk src (conv t) new_walker) as [w|]; reflexivity.
Qed.
