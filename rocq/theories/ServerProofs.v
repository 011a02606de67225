From Coq Require Import List NArith ZArith Bool Arith Lia String.
From Verif Require Import Text TextFacts LineEndingModel LineIndexModel ResolverModel SettingsModel SettingsProofs DocsModel DocsSpec DocsProofs
  TextEditModel ProtoEditsModel WorkspaceModel ServerModel ServerSpec.
Import ListNotations.

Notation length := List.length.

Lemma width_read : forall n, indent_width_from_usize n = width_or_default n.
Proof.
  intro n. unfold indent_width_from_usize, width_or_default. destruct ((1 <=? n) && (n <=? 24))%Z eqn:E.
  - replace (indent_width_try_from_int n) with (Some (Z.to_N n)); [reflexivity|]. symmetry. apply indent_width_iff. lia.
  - destruct (indent_width_try_from_int n) as [m|] eqn:E2; [|reflexivity]. apply indent_width_iff in E2. lia.
Qed.

Lemma decode_document_read : forall a b c, decode_document a b c = read_document a b c.
Proof.
  intros a b c. unfold decode_document, read_document.
  destruct a; destruct b; destruct c; try reflexivity; cbn [decode_bool decode_indent_size decode_usize]; unfold document_settings_from_vsc;
    cbn [v_insert_spaces v_indent_size v_tab_size indent_width_from_vsc]; rewrite ?width_read; reflexivity.
Qed.

Lemma decode_global_read : forall a b c, decode_global a b c = read_global a b c.
Proof.
  intros a b c. unfold decode_global, read_global.
  assert (forall x, decode_log_level (JStr x) = if text_eqb x $"error" || text_eqb x $"warn" || text_eqb x $"info" || text_eqb x $"debug" || text_eqb x $"trace" then Some (Some x) else None) as L.
  { intro x. unfold decode_log_level. cbn [existsb]. rewrite orb_false_r, !orb_assoc. reflexivity. }
  destruct a as [| |x| |]; try reflexivity; try rewrite L;
    try (destruct (text_eqb x _ || text_eqb x _ || text_eqb x _ || text_eqb x _ || text_eqb x _));
    destruct b; try reflexivity; destruct c; reflexivity.
Qed.

Lemma settings_set_same : forall f u d, settings_set f u d u = d.
Proof. intros. unfold settings_set. rewrite text_eqb_refl. reflexivity. Qed.
Lemma settings_set_other : forall f u d v, v <> u -> settings_set f u d v = f v.
Proof. intros f u d v H. unfold settings_set. destruct (text_eqb v u) eqn:E; [apply text_eqb_eq in E; contradiction|reflexivity]. Qed.

Section P.
  Variable T : Type.
  Variable parse : text -> T.
  Variable has_error : T -> bool.
  Variable windows : bool.
  Variable print : format_options -> text -> option text.
  Variable dissimilar : text -> text -> list chunk.
  Variable url_of : text -> url.
  Variable excluded : format_settings -> path -> bool.
  Variable format_range : document T -> format_options -> bool -> lsp_range -> option reply.
  Variable view : document T -> nat -> option text.

  Notation update_config := (update_config T url_of).
  Notation update_documents_config := (update_documents_config T).
  Notation update_global_config := (update_global_config T url_of).
  Notation handle_event := (handle_event T parse has_error windows print dissimilar url_of excluded format_range view).
  Notation main_loop := (main_loop T parse has_error windows print dissimilar url_of excluded format_range view).
  Notation handle_doc := (handle_doc T parse url_of).
  Notation send_sync := (send_sync T url_of).
  Notation sv := (server T).

  (** * Configuration *)

  Definition doc_values (ans : config_item -> json) (uris : list text) : list json :=
    map ans (flat_map (fun u => map (fun s => {| ci_scope := Some u; ci_section := s |}) DOCUMENT_SECTIONS) uris).

  Lemma doc_values_cons : forall ans u uris, doc_values ans (u :: uris) =
    ans {| ci_scope := Some u; ci_section := $"editor.insertSpaces" |} :: ans {| ci_scope := Some u; ci_section := $"editor.indentSize" |}
    :: ans {| ci_scope := Some u; ci_section := $"editor.tabSize" |} :: doc_values ans uris.
  Proof. reflexivity. Qed.

  Lemma doc_values_length : forall ans uris, length (doc_values ans uris) = 3 * length uris.
  Proof. intros ans uris. induction uris as [|u uris IH]; [reflexivity|]. rewrite doc_values_cons. cbn [length]. rewrite IH. lia. Qed.

  Lemma documents_config_ok : forall docs ans uris f,
    (forall u, In u uris -> docs u <> None) -> (forall u, In u uris -> own_settings ans u <> None) ->
    exists f', update_documents_config docs f uris (doc_values ans uris) = (f', true) /\
      (forall u, In u uris -> Some (f' u) = own_settings ans u) /\ (forall u, ~ In u uris -> f' u = f u).
  Proof.
    intros docs ans uris. induction uris as [|u uris IH]; intros f Hd Ho.
    - exists f. split; [reflexivity|]. split; [intros u []|auto].
    - rewrite doc_values_cons. cbn [ServerModel.update_documents_config]. rewrite decode_document_read. change (read_document _ _ _) with (own_settings ans u).
      destruct (own_settings ans u) as [d|] eqn:E; [|exfalso; apply (Ho u (or_introl eq_refl) E)].
      destruct (docs u) eqn:Eu; [|exfalso; apply (Hd u (or_introl eq_refl) Eu)].
      destruct (IH (settings_set f u d)) as [f' [F1 [F2 F3]]]; [intros; apply Hd; right; assumption|intros; apply Ho; right; assumption|].
      exists f'. split; [exact F1|]. split.
      + intros v [<-|Hv]; [|apply F2; exact Hv]. destruct (in_dec (list_eq_dec N.eq_dec) u uris) as [i|n]; [apply F2; exact i|].
        rewrite F3 by exact n. rewrite settings_set_same. congruence.
      + intros v Hv. rewrite F3 by (intro; apply Hv; right; assumption). apply settings_set_other. intro; subst; apply Hv; left; reflexivity.
  Qed.

  Lemma documents_config_stop : forall docs ans pre u post f,
    (forall v, In v pre -> docs v <> None) -> (forall v, In v pre -> own_settings ans v <> None) ->
    own_settings ans u = None \/ docs u = None ->
    exists f', update_documents_config docs f (pre ++ u :: post) (doc_values ans (pre ++ u :: post)) = (f', false) /\
      (forall v, In v pre -> Some (f' v) = own_settings ans v) /\ (forall v, ~ In v pre -> f' v = f v).
  Proof.
    intros docs ans pre u post. induction pre as [|w pre IH]; intros f Hd Ho Hu.
    - exists f. split; [|split; [intros v []|auto]]. cbn [app]. rewrite doc_values_cons. cbn [ServerModel.update_documents_config].
      rewrite decode_document_read. change (read_document _ _ _) with (own_settings ans u). destruct Hu as [-> | ->]; [reflexivity|]. destruct (own_settings ans u); reflexivity.
    - cbn [app]. rewrite doc_values_cons. cbn [ServerModel.update_documents_config]. rewrite decode_document_read. change (read_document _ _ _) with (own_settings ans w).
      destruct (own_settings ans w) as [d|] eqn:E; [|exfalso; apply (Ho w (or_introl eq_refl) E)].
      destruct (docs w) eqn:Eu; [|exfalso; apply (Hd w (or_introl eq_refl) Eu)].
      destruct (IH (settings_set f w d)) as [f' [F1 [F2 F3]]]; [intros; apply Hd; right; assumption|intros; apply Ho; right; assumption|exact Hu|].
      exists f'. split; [exact F1|]. split.
      + intros v [<-|Hv]; [|apply F2; exact Hv]. destruct (in_dec (list_eq_dec N.eq_dec) w pre) as [i|n]; [apply F2; exact i|].
        rewrite F3 by exact n. rewrite settings_set_same. congruence.
      + intros v Hv. rewrite F3 by (intro; apply Hv; right; assumption). apply settings_set_other. intro; subst; apply Hv; left; reflexivity.
  Qed.

  Lemma answer_split : forall (ans : config_item -> json) uris,
    map ans (config_items uris) = map ans (map (fun s => {| ci_scope := None; ci_section := s |}) DIAGNOSTICS_SECTIONS) ++ doc_values ans uris ++
      map ans (map (fun s => {| ci_scope := None; ci_section := s |}) GLOBAL_SECTIONS).
  Proof. intros. unfold config_items. rewrite !map_app. reflexivity. Qed.

  Lemma config_items_length : forall uris, length (config_items uris) = 1 + 3 * length uris + 3.
  Proof.
    intros. rewrite <- (map_length (fun _ => JNull)), answer_split, !app_length, doc_values_length. cbn [length map DIAGNOSTICS_SECTIONS GLOBAL_SECTIONS]. lia.
  Qed.

  (* update_config on an item-by-item reply *)
  Lemma update_config_answered : forall e (s : sv) uris ans, sv_can_ask T s = true -> answered e (config_items uris) ans ->
    update_config e s uris =
    (let (f, ok) := update_documents_config (sv_docs T s) (sv_settings T s) uris (doc_values ans uris) in
     let s1 := with_settings T s f in
     if negb ok then (s1, [OAsk (config_items uris)], false)
     else if negb (sv_log T s) then (s1, [OAsk (config_items uris)], false)
     else match global_sync ans with
          | None => (s1, [OAsk (config_items uris)], false)
          | Some b => (with_sync T s1 b, OAsk (config_items uris) :: (if negb (sv_sync T s) && b then send_sync (with_sync T s1 b) (e_order e) else []), true)
          end).
  Proof.
    intros e s uris ans Hc Ha. unfold ServerModel.update_config. rewrite Hc. cbn [negb]. unfold answered in Ha. rewrite Ha.
    assert (length (map ans (config_items uris)) =? length DIAGNOSTICS_SECTIONS + length DOCUMENT_SECTIONS * length uris + length GLOBAL_SECTIONS = true) as ->.
    { apply Nat.eqb_eq. rewrite map_length, config_items_length. reflexivity. }
    cbn [negb]. rewrite answer_split. cbn [DIAGNOSTICS_SECTIONS map length skipn app].
    change (length DOCUMENT_SECTIONS * length uris) with (3 * length uris). rewrite <- (doc_values_length ans uris).
    rewrite firstn_app, firstn_all, Nat.sub_diag. cbn [firstn]. rewrite app_nil_r.
    destruct (update_documents_config _ _ _ _) as [f ok]. destruct ok; cbn [negb]; [|reflexivity].
    rewrite skipn_app, skipn_all, Nat.sub_diag. cbn [skipn app GLOBAL_SECTIONS map firstn length].
    unfold ServerModel.update_global_config. cbn [sv_log with_settings sv_sync]. destruct (sv_log T s); cbn [negb]; [|reflexivity].
    rewrite decode_global_read. change (read_global _ _ _) with (global_sync ans). destruct (global_sync ans); reflexivity.
  Qed.

  Lemma config_each_own : forall e (s : sv) uris ans s' outs ok,
    sv_can_ask T s = true -> answered e (config_items uris) ans ->
    (forall u, In u uris -> sv_docs T s u <> None) -> (forall u, In u uris -> own_settings ans u <> None) ->
    update_config e s uris = (s', outs, ok) ->
    (forall u, In u uris -> Some (sv_settings T s' u) = own_settings ans u) /\
    (forall u, ~ In u uris -> sv_settings T s' u = sv_settings T s u) /\
    (sv_log T s = true -> forall b, global_sync ans = Some b -> ok = true /\ sv_sync T s' = b) /\
    (sv_log T s = false \/ global_sync ans = None -> ok = false /\ sv_sync T s' = sv_sync T s) /\
    sv_docs T s' = sv_docs T s /\ sv_workspaces T s' = sv_workspaces T s /\ sv_enc T s' = sv_enc T s.
  Proof.
    intros e s uris ans s' outs ok Hc Ha Hd Ho H. rewrite (update_config_answered e s uris ans Hc Ha) in H.
    destruct (documents_config_ok (sv_docs T s) ans uris (sv_settings T s) Hd Ho) as [f [F1 [F2 F3]]]. rewrite F1 in H. cbn [negb] in H.
    destruct (sv_log T s); cbn [negb] in H; [destruct (global_sync ans) as [b|] eqn:Eg|]; injection H as <- <- <-; cbn;
      (split; [exact F2|]); (split; [exact F3|]).
    - split; [intros _ b' E; injection E as <-; auto|]. split; [intros [?|?]; discriminate|auto].
    - split; [intros _ b' E; discriminate|]. split; [auto|auto].
    - split; [discriminate|]. split; [auto|auto].
  Qed.

  Lemma config_bad_reply : forall e (s : sv) uris,
    sv_can_ask T s = true ->
    match e_answer e (config_items uris) with None => True | Some l => length l <> 1 + 3 * length uris + 3 end ->
    update_config e s uris = (s, [OAsk (config_items uris)], false).
  Proof.
    intros e s uris Hc H. unfold ServerModel.update_config. rewrite Hc. cbn [negb]. destruct (e_answer e (config_items uris)) as [l|]; [|reflexivity].
    assert (length l =? length DIAGNOSTICS_SECTIONS + length DOCUMENT_SECTIONS * length uris + length GLOBAL_SECTIONS = false) as ->; [|reflexivity].
    apply Nat.eqb_neq. exact H.
  Qed.

  Lemma config_stops : forall e (s : sv) pre u post ans,
    sv_can_ask T s = true -> answered e (config_items (pre ++ u :: post)) ans ->
    (forall v, In v pre -> sv_docs T s v <> None) -> (forall v, In v pre -> own_settings ans v <> None) ->
    own_settings ans u = None ->
    exists f, update_config e s (pre ++ u :: post) = (with_settings T s f, [OAsk (config_items (pre ++ u :: post))], false) /\
      (forall v, In v pre -> Some (f v) = own_settings ans v) /\ (forall v, ~ In v pre -> f v = sv_settings T s v).
  Proof.
    intros e s pre u post ans Hc Ha Hd Ho Hu. rewrite (update_config_answered e s _ ans Hc Ha).
    destruct (documents_config_stop (sv_docs T s) ans pre u post (sv_settings T s) Hd Ho (or_introl Hu)) as [f [F1 F2]]. rewrite F1. exists f. split; [reflexivity|exact F2].
  Qed.

  (** * The main loop *)

  (* update_config touches only the settings and the sync flag, and sends no response *)
  Lemma send_sync_quiet : forall (s : sv) us, responses (send_sync s us) = [].
  Proof. intros. unfold ServerModel.send_sync. destruct (sync_file_settings _ _ _); reflexivity. Qed.

  Lemma responses_app : forall a b, responses (a ++ b) = responses a ++ responses b.
  Proof. intros. apply flat_map_app. Qed.

  Lemma update_config_frame : forall e (s : sv) uris s' outs ok, update_config e s uris = (s', outs, ok) ->
    sv_docs T s' = sv_docs T s /\ sv_workspaces T s' = sv_workspaces T s /\ sv_enc T s' = sv_enc T s /\
    sv_log_tx T s' = sv_log_tx T s /\ responses outs = [].
  Proof.
    intros e s uris s' outs ok. unfold ServerModel.update_config. destruct (negb (sv_can_ask T s)); [intro H; injection H as <- <- <-; auto|].
    destruct (e_answer e (config_items uris)) as [l|]; [|intro H; injection H as <- <- <-; auto].
    destruct (negb (length l =? _)); [intro H; injection H as <- <- <-; auto|].
    destruct (update_documents_config _ _ _ _) as [f ok1]. destruct (negb ok1); [intro H; injection H as <- <- <-; auto|].
    unfold ServerModel.update_global_config. cbn [sv_log with_settings]. destruct (negb (sv_log T s)); [intro H; injection H as <- <- <-; auto|].
    destruct (firstn _ _) as [|a [|b [|c [|]]]]; try (intro H; injection H as <- <- <-; auto; fail).
    destruct (decode_global a b c) as [g|]; [|intro H; injection H as <- <- <-; auto].
    intro H. injection H as <- <- <-. repeat split. cbn [responses flat_map app]. destruct (negb _ && g); [apply send_sync_quiet|reflexivity].
  Qed.

  Lemma decode_document_width : forall a b c d, decode_document a b c = Some d -> d_line_width d = None.
  Proof.
    intros a b c d. rewrite decode_document_read. unfold read_document. destruct a; destruct b; destruct c; intro H; try discriminate; injection H as <-; reflexivity.
  Qed.

  Definition no_width (s : sv) : Prop := forall u, d_line_width (sv_settings T s u) = None.

  Lemma set_width : forall f u d, (forall v, d_line_width (f v) = None) -> d_line_width d = None -> forall v, d_line_width (settings_set f u d v) = None.
  Proof. intros f u d H1 H2 v. unfold settings_set. destruct (text_eqb v u); auto. Qed.

  Lemma documents_config_width : forall docs uris f vs, (forall u, d_line_width (f u) = None) ->
    forall u, d_line_width (fst (update_documents_config docs f uris vs) u) = None.
  Proof.
    intros docs uris. induction uris as [|v uris IH]; intros f vs H u; [apply H|]. cbn [ServerModel.update_documents_config].
    destruct vs as [|a [|b [|c vs]]]; try apply H. destruct (decode_document a b c) as [d|] eqn:E; [|apply H]. destruct (docs v); [|apply H].
    apply IH. apply set_width; [exact H|]. eapply decode_document_width; exact E.
  Qed.

  Lemma update_config_width : forall e (s : sv) uris, no_width s -> no_width (fst (fst (update_config e s uris))).
  Proof.
    intros e s uris H. unfold ServerModel.update_config. destruct (negb (sv_can_ask T s)); [exact H|].
    destruct (e_answer e (config_items uris)) as [l|]; [|exact H]. destruct (negb (length l =? _)); [exact H|].
    match goal with |- context [ServerModel.update_documents_config T ?a ?b ?c ?d] => pose proof (documents_config_width a c b d H) as W; destruct (update_documents_config a b c d) as [f ok1] end.
    cbn [fst] in W. destruct (negb ok1); [exact W|].
    unfold ServerModel.update_global_config. cbn [sv_log with_settings]. destruct (negb (sv_log T s)); [exact W|].
    destruct (firstn _ _) as [|a [|b [|c [|]]]]; try exact W. destruct (decode_global a b c) as [g|]; exact W.
  Qed.

  Definition doc_event_of (m : message) : list doc_event := match m with MDoc ev => [ev] | _ => [] end.

  (* one event: its response, the documents, the encoding *)
  Lemma event_facts : forall e (s s' : sv) m outs ok c, handle_event e s m = Some (s', outs, ok, c) ->
    Forall2 answers (requests [(e, m)]) (responses outs) /\
    (c = Break <-> is_shutdown m) /\
    (~ is_initialize m -> sv_enc T s' = sv_enc T s /\ sv_log_tx T s' = sv_log_tx T s) /\
    (is_initialize m -> sv_log_tx T s = true /\ sv_log_tx T s' = false) /\
    doc_run T parse (sv_enc T s) (sv_docs T s) (doc_event_of m) = Some (sv_docs T s') /\
    (no_width s -> no_width s').
  Proof.
    intros e s s' m outs ok c H.
    assert (forall id q, ~ is_shutdown (MRequest id q) -> (Continue = Break <-> is_shutdown (MRequest id q))) as NB by (intros; split; [discriminate|contradiction]).
    destruct m as [|added removed| |changes|ev|u| |id q]; cbn [ServerModel.handle_event] in H.
    - injection H as <- <- _ <-. split; [constructor|]. split; [split; [discriminate|intros [? ?]; discriminate]|].
      split; [auto|]. split; [intros [? [? [? [? ?]]]]; discriminate|]. split; [reflexivity|auto].
    - injection H as <- <- _ <-. split; [constructor|]. split; [split; [discriminate|intros [? ?]; discriminate]|].
      split; [auto|]. split; [intros [? [? [? [? ?]]]]; discriminate|]. split; [reflexivity|auto].
    - pose proof (update_config_width e s (e_order e)) as W.
      destruct (update_config e s (e_order e)) as [[s1 o1] k1] eqn:E. injection H as <- <- _ <-.
      destruct (update_config_frame _ _ _ _ _ _ E) as [F1 [F2 [F3 [F4 F5]]]]. rewrite F1, F3, F4, F5.
      split; [constructor|]. split; [split; [discriminate|intros [? ?]; discriminate]|].
      split; [auto|]. split; [intros [? [? [? [? ?]]]]; discriminate|]. split; [reflexivity|exact W].
    - destruct (did_change_watched_files _ _ _ _ _) as [w sync]. injection H as <- <- _ <-.
      assert (responses (match sync with Some l => [OSync l] | None => [] end) = []) as -> by (destruct sync; reflexivity).
      split; [constructor|]. split; [split; [discriminate|intros [? ?]; discriminate]|].
      split; [auto|]. split; [intros [? [? [? [? ?]]]]; discriminate|]. split; [reflexivity|auto].
    - destruct (handle_doc e s ev) as [[[s1 o1] k1]|] eqn:E; [|discriminate]. injection H as <- <- _ <-.
      unfold ServerModel.handle_doc in E. cbn [doc_event_of doc_run]. destruct (doc_step T parse (sv_enc T s) (sv_docs T s) ev) as [[m k]|]; [|discriminate].
      assert (sv_enc T s1 = sv_enc T s /\ sv_log_tx T s1 = sv_log_tx T s /\ sv_docs T s1 = m /\ responses o1 = [] /\ (no_width s -> no_width s1)) as [G1 [G2 [G3 [G4 G5]]]].
      { destruct ev as [u v t|u v cs|u]; try (injection E as <- <- _; repeat split; auto; fail).
        set (s0 := with_settings T (with_docs T s m) (settings_set (sv_settings T (with_docs T s m)) u document_settings_default)) in *.
        pose proof (update_config_width e s0 [u]) as W.
        destruct (update_config e s0 [u]) as [[s2 o2] k2] eqn:E2. destruct (update_config_frame _ _ _ _ _ _ E2) as [F1 [F2 [F3 [F4 F5]]]].
        assert (no_width s -> no_width s2) as W2 by (intro Hn; apply W; unfold no_width, s0; cbn; apply set_width; [exact Hn|reflexivity]).
        destruct k2; injection E as <- <- _; (split; [exact F3|]); (split; [exact F4|]); (split; [exact F1|]); (split; [|exact W2]); [|exact F5].
        rewrite responses_app, F5. apply send_sync_quiet. }
      rewrite G1, G2, G3, G4. split; [constructor|]. split; [split; [discriminate|intros [? ?]; discriminate]|].
      split; [auto|]. split; [intros [? [? [? [? ?]]]]; discriminate|]. split; [reflexivity|exact G5].
    - injection H as <- <- _ <-. split; [constructor|]. split; [split; [discriminate|intros [? ?]; discriminate]|].
      split; [auto|]. split; [intros [? [? [? [? ?]]]]; discriminate|]. split; [reflexivity|auto].
    - injection H as <- <- _ <-. split; [constructor|]. split; [split; [discriminate|intros [? ?]; discriminate]|].
      split; [auto|]. split; [intros [? [? [? [? ?]]]]; discriminate|]. split; [reflexivity|auto].
    - assert (forall u sp tab, sv_enc T (did_change_formatting_options T s u sp tab) = sv_enc T s /\ sv_log_tx T (did_change_formatting_options T s u sp tab) = sv_log_tx T s /\
          sv_docs T (did_change_formatting_options T s u sp tab) = sv_docs T s /\ (no_width s -> no_width (did_change_formatting_options T s u sp tab))) as D.
      { intros u sp tab. unfold did_change_formatting_options. destruct (sv_docs T s u); repeat split; auto. intro Hn. unfold no_width. cbn. apply set_width; [exact Hn|cbn; apply Hn]. }
      destruct q as [folders utf8 can| |u sp tab|u sp tab r|u kind].
      + destruct (sv_log_tx T s) eqn:El; cbn [negb] in H; [|discriminate]. injection H as <- <- _ <-.
        split; [constructor; [split; [reflexivity|exact I]|constructor]|]. split; [split; [discriminate|intros [? ?]; discriminate]|].
        split; [intro N; exfalso; apply N; do 4 eexists; reflexivity|]. split; [auto|]. split; [reflexivity|auto].
      + injection H as <- <- _ <-. split; [constructor; [split; [reflexivity|exact I]|constructor]|]. split; [split; [intros _; eexists; reflexivity|reflexivity]|].
        split; [auto|]. split; [intros [? [? [? [? ?]]]]; discriminate|]. split; [reflexivity|auto].
      + injection H as <- <- _ <-. destruct (D u sp tab) as [D1 [D2 [D3 D4]]]. rewrite D1, D2, D3. split.
        { constructor; [split; [reflexivity|]|constructor]. cbn [snd fst]. unfold handle_format. destruct (sv_docs T _ u) as [d|]; [|exact I]. destruct (document_formatting _ _ _ _ _ _ d); exact I. }
        split; [split; [discriminate|intros [? ?]; discriminate]|]. split; [auto|]. split; [intros [? [? [? [? ?]]]]; discriminate|]. split; [reflexivity|exact D4].
      + destruct (handle_format_range _ _ _ _ _ _ _ _) as [rs|] eqn:E; [|discriminate]. injection H as <- <- _ <-. destruct (D u sp tab) as [D1 [D2 [D3 D4]]]. rewrite D1, D2, D3. split.
        { constructor; [split; [reflexivity|]|constructor]. cbn [snd fst]. unfold handle_format_range in E. destruct (sv_docs T _ u) as [d|]; [|injection E as <-; exact I].
          destruct (format_range d _ _ r) as [[es| |]|]; try discriminate; injection E as <-; exact I. }
        split; [split; [discriminate|intros [? ?]; discriminate]|]. split; [auto|]. split; [intros [? [? [? [? ?]]]]; discriminate|]. split; [reflexivity|exact D4].
      + injection H as <- <- _ <-. split.
        { constructor; [split; [reflexivity|]|constructor]. cbn [snd fst]. destruct (sv_docs T s u) as [d|]; [|exact I]. destruct (view d kind); exact I. }
        split; [split; [discriminate|intros [? ?]; discriminate]|]. split; [auto|]. split; [intros [? [? [? [? ?]]]]; discriminate|]. split; [reflexivity|auto].
  Qed.

  Lemma requests_cons : forall x h, requests (x :: h) = requests [x] ++ requests h.
  Proof. intros. unfold requests. cbn [flat_map]. rewrite app_nil_r. reflexivity. Qed.

  (* the events that are processed, and why it stopped there *)
  Lemma loop_prefix : forall h (s s' : sv) outs st, main_loop s h = (s', outs, st) ->
    exists pre post, h = pre ++ post /\ Forall2 answers (requests pre) (responses outs) /\
      match st with
      | Running => post = [] /\ Forall (fun em => ~ is_shutdown (snd em)) pre
      | Stopped => exists p em, pre = p ++ [em] /\ is_shutdown (snd em) /\ Forall (fun em => ~ is_shutdown (snd em)) p
      | Panicked => exists e m post', post = (e, m) :: post' /\ handle_event e s' m = None /\ Forall (fun em => ~ is_shutdown (snd em)) pre /\
           main_loop s pre = (s', outs, Running)
      end.
  Proof.
    induction h as [|[e m] h IH]; intros s s' outs st H; cbn [ServerModel.main_loop] in H.
    - injection H as <- <- <-. exists [], []. repeat split; constructor.
    - destruct (handle_event e s m) as [[[[s1 o1] k1] c1]|] eqn:E.
      + destruct (event_facts _ _ _ _ _ _ _ E) as [A [B _]]. destruct c1.
        * destruct (main_loop s1 h) as [[s2 o2] st2] eqn:E2. injection H as <- <- <-. destruct (IH _ _ _ _ E2) as [pre [post [P1 [P2 P3]]]].
          assert (~ is_shutdown m) as Ns by (intro Q; apply B in Q; discriminate).
          exists ((e, m) :: pre), post. split; [rewrite P1; reflexivity|]. split; [rewrite requests_cons, responses_app; apply Forall2_app; assumption|].
          destruct st2.
          -- destruct P3 as [-> P3]. split; [reflexivity|]. constructor; assumption.
          -- destruct P3 as [p [em [-> [P4 P5]]]]. exists ((e, m) :: p), em. split; [reflexivity|]. split; [exact P4|]. constructor; assumption.
          -- destruct P3 as [e' [m' [post' [-> [P4 [P5 P6]]]]]]. exists e', m', post'. split; [reflexivity|]. split; [exact P4|]. split; [constructor; assumption|].
             cbn [ServerModel.main_loop]. rewrite E, P6. reflexivity.
        * injection H as <- <- <-. exists [(e, m)], h. split; [reflexivity|]. split; [exact A|]. exists [], (e, m). split; [reflexivity|]. split; [apply B; reflexivity|constructor].
      + injection H as <- <- <-. exists [], ((e, m) :: h). split; [reflexivity|]. split; [constructor|]. exists e, m, h. repeat split; try assumption. constructor.
  Qed.

  Lemma doc_events_cons : forall x h, doc_events (x :: h) = doc_event_of (snd x) ++ doc_events h.
  Proof. intros. unfold doc_events. cbn [flat_map]. destruct (snd x); reflexivity. Qed.

  Lemma doc_run_app : forall enc a m b, doc_run T parse enc m (a ++ b) = match doc_run T parse enc m a with Some m' => doc_run T parse enc m' b | None => None end.
  Proof.
    intros enc a. induction a as [|ev a IH]; intros m b; [reflexivity|]. cbn [app doc_run]. destruct (doc_step T parse enc m ev) as [[m' k]|]; [apply IH|reflexivity].
  Qed.

  (* documents depend on the document notifications only *)
  Lemma loop_docs : forall h (s s' : sv) outs st, main_loop s h = (s', outs, st) -> st <> Panicked ->
    Forall (fun em => ~ is_initialize (snd em)) h -> Forall (fun em => ~ is_shutdown (snd em)) h ->
    doc_run T parse (sv_enc T s) (sv_docs T s) (doc_events h) = Some (sv_docs T s').
  Proof.
    induction h as [|[e m] h IH]; intros s s' outs st H Hp Hi Hs; cbn [ServerModel.main_loop] in H.
    - injection H as <- _ _. reflexivity.
    - inversion Hi as [|? ? Hi1 Hi2]; subst. inversion Hs as [|? ? Hs1 Hs2]; subst. destruct (handle_event e s m) as [[[[s1 o1] k1] c1]|] eqn:E; [|injection H as _ _ <-; congruence].
      destruct (event_facts _ _ _ _ _ _ _ E) as [_ [B [C [_ [D _]]]]]. destruct c1; [|exfalso; apply Hs1; apply B; reflexivity].
      destruct (main_loop s1 h) as [[s2 o2] st2] eqn:E2. injection H as <- _ <-. rewrite doc_events_cons, doc_run_app. cbn [snd]. rewrite D.
      destruct (C Hi1) as [C1 _]. rewrite <- C1. eapply IH; eassumption.
  Qed.

  (* the only causes of a panic *)
  Lemma event_panics : forall e (s : sv) m, handle_event e s m = None ->
    (is_initialize m /\ sv_log_tx T s = false) \/
    (exists ev, m = MDoc ev /\ doc_step T parse (sv_enc T s) (sv_docs T s) ev = None) \/
    (exists id u sp tab r d o x, m = MRequest id (QFormatRange u sp tab r) /\ sv_docs T s u = Some d /\ format_range d o x r = None).
  Proof.
    intros e s m H. destruct m as [|added removed| |changes|ev|u| |id q]; cbn [ServerModel.handle_event] in H; try discriminate.
    - destruct (update_config e s (e_order e)) as [[? ?] ?]. discriminate.
    - destruct (did_change_watched_files _ _ _ _ _). discriminate.
    - right. left. exists ev. split; [reflexivity|]. unfold ServerModel.handle_doc in H. destruct (doc_step T parse (sv_enc T s) (sv_docs T s) ev) as [[m k]|]; [|reflexivity].
      destruct ev; try discriminate. destruct (update_config e _ _) as [[? ?] k2]. destruct k2; discriminate.
    - destruct q as [folders utf8 can| |u sp tab|u sp tab r|u kind]; try discriminate.
      + left. split; [do 4 eexists; reflexivity|]. destruct (sv_log_tx T s); [discriminate|reflexivity].
      + right. right. exists id, u, sp, tab, r.
        assert (sv_docs T (did_change_formatting_options T s u sp tab) = sv_docs T s) as Ed by (unfold did_change_formatting_options; destruct (sv_docs T s u); reflexivity).
        destruct (handle_format_range _ _ _ _ _ _ _ _) as [rs|] eqn:E; [discriminate|]. unfold handle_format_range in E. rewrite Ed in E.
        destruct (sv_docs T s u) as [d|]; [|discriminate].
        match type of E with match format_range d ?o ?x r with _ => _ end = None => exists d, o, x; destruct (format_range d o x r) as [[es| |]|]; try discriminate; auto end.
  Qed.

  Lemma loop_safe : forall h (s : sv),
    Forall (fun em => ~ is_initialize (snd em)) h -> Forall (fun em => ~ is_shutdown (snd em)) h ->
    doc_run T parse (sv_enc T s) (sv_docs T s) (doc_events h) <> None ->
    (forall d o x r, format_range d o x r <> None) ->
    exists s' outs, main_loop s h = (s', outs, Running).
  Proof.
    induction h as [|[e m] h IH]; intros s Hi Hs Hd Hf; cbn [ServerModel.main_loop]; [eauto|].
    inversion Hi as [|? ? Hi1 Hi2]; subst. inversion Hs as [|? ? Hs1 Hs2]; subst. rewrite doc_events_cons, doc_run_app in Hd. cbn [snd] in *.
    destruct (handle_event e s m) as [[[[s1 o1] k1] c1]|] eqn:E.
    - destruct (event_facts _ _ _ _ _ _ _ E) as [_ [B [C [_ [D _]]]]]. destruct c1; [|exfalso; apply Hs1; apply B; reflexivity].
      rewrite D in Hd. destruct (C Hi1) as [C1 _]. rewrite <- C1 in Hd. destruct (IH s1 Hi2 Hs2 Hd Hf) as [s2 [o2 E2]]. rewrite E2. eauto.
    - exfalso. apply event_panics in E. destruct E as [[E _]|[[ev [-> E]]|[id [u [sp [tab [r [d [o [x [_ [_ E]]]]]]]]]]]].
      + exact (Hi1 E).
      + cbn [doc_event_of doc_run] in Hd. rewrite E in Hd. apply Hd. reflexivity.
      + exact (Hf _ _ _ _ E).
  Qed.

  Lemma session_in_step : forall e0 id folders (utf8 can : bool) rest ed,
    let enc := if utf8 then EUtf8 else EUtf16 in
    Forall (fun em => ~ is_initialize (snd em)) rest -> Forall (fun em => ~ is_shutdown (snd em)) rest ->
    editor_run enc no_editor (doc_events rest) ed ->
    (forall d o x r, format_range d o x r <> None) ->
    exists s outs, main_loop (server_new T) ((e0, MRequest id (QInitialize folders utf8 can)) :: rest) = (s, outs, Running) /\
      (exists tl, responses outs = (id, RInitialize enc) :: tl /\ Forall2 answers (requests rest) tl) /\
      forall u, match ed u with
                | Some (t, v) => exists d, sv_docs T s u = Some d /\ in_step parse enc d t v
                | None => sv_docs T s u = None
                end.
  Proof.
    intros e0 id folders utf8 can rest ed enc Hi Hs He Hf.
    cbn [ServerModel.main_loop ServerModel.handle_event server_new sv_log_tx negb]. fold (server_new T).
    set (s0 := initialize T e0 (server_new T) folders utf8 can).
    destruct (server_equals_editor parse enc _ _ He) as [m [M1 M2]].
    destruct (loop_safe rest s0 Hi Hs) as [s [outs E]]; [|exact Hf|].
    { change (sv_enc T s0) with enc. change (sv_docs T s0) with (@no_documents T). rewrite M1. discriminate. }
    rewrite E. eexists. eexists. split; [reflexivity|]. split.
    - exists (responses outs). split; [reflexivity|]. destruct (loop_prefix _ _ _ _ _ E) as [pre [post [P1 [P2 [P3 _]]]]]. subst post. rewrite app_nil_r in P1. subst pre. exact P2.
    - assert (sv_docs T s = m) as ->; [|exact M2].
      assert (Running <> Panicked) as Np by discriminate. pose proof (loop_docs rest s0 s outs Running E Np Hi Hs) as Q.
      change (sv_enc T s0) with enc in Q. change (sv_docs T s0) with (@no_documents T) in Q. congruence.
  Qed.

  (* fallback settings are always the defaults *)
  Definition plain (w : workspaces) : Prop := fallback (fallback w) = format_settings_default.

  Lemma plain_open : forall fs w u, plain w -> plain (open_workspace_folder fs w u).
  Proof.
    intros fs w u H. unfold open_workspace_folder. destruct (url_to_path u); [|exact H]. destruct (discover_one fs p); [|exact H].
    unfold resolver_add. destruct (BinSearchModel.binary_search_by _ _); [destruct (nth_error _ _) as [[? ?]|]|]; exact H.
  Qed.
  Lemma plain_close : forall w u, plain w -> plain (close_workspace_folder w u).
  Proof.
    intros w u H. unfold close_workspace_folder. destruct (url_to_path u); [|exact H].
    unfold resolver_remove. destruct (BinSearchModel.binary_search_by _ _); [destruct (nth_error _ _) as [[? ?]|]|]; exact H.
  Qed.
  Lemma plain_fold_open : forall fs us w, plain w -> plain (fold_left (open_workspace_folder fs) us w).
  Proof. intros fs us. induction us as [|u us IH]; intros w H; [exact H|]. apply IH. apply plain_open. exact H. Qed.
  Lemma plain_fold_close : forall us w, plain w -> plain (fold_left close_workspace_folder us w).
  Proof. intros us. induction us as [|u us IH]; intros w H; [exact H|]. apply IH. apply plain_close. exact H. Qed.
  Lemma plain_reload : forall fs us w, plain w -> plain (fst (reload_all fs w us)).
  Proof.
    intros fs us. induction us as [|u us IH]; intros w H; [exact H|]. cbn [reload_all].
    assert (plain (fst (reload_workspaces_matched_by_url fs w u))) as H1.
    { unfold reload_workspaces_matched_by_url. destruct (url_to_path u); [|exact H]. destruct (negb _); exact H. }
    destruct (reload_workspaces_matched_by_url fs w u) as [w1 b1]. specialize (IH w1 H1). destruct (reload_all fs w1 us). exact IH.
  Qed.

  Lemma plain_event : forall e (s s' : sv) m outs ok c, handle_event e s m = Some (s', outs, ok, c) ->
    plain (sv_workspaces T s) -> plain (sv_workspaces T s').
  Proof.
    intros e s s' m outs ok c H Hp. destruct m as [|added removed| |changes|ev|u| |id q]; cbn [ServerModel.handle_event] in H; try (injection H as <- _ _ _; exact Hp).
    - injection H as <- _ _ _. cbn. apply plain_fold_close, plain_fold_open, Hp.
    - destruct (update_config e s (e_order e)) as [[s1 o1] k1] eqn:E. injection H as <- _ _ _. destruct (update_config_frame _ _ _ _ _ _ E) as [_ [-> _]]. exact Hp.
    - unfold did_change_watched_files in H. pose proof (plain_reload (e_fs e) changes _ Hp) as Q. destruct (reload_all _ _ _) as [w b]. injection H as <- _ _ _. exact Q.
    - destruct (handle_doc e s ev) as [[[s1 o1] k1]|] eqn:E; [|discriminate]. injection H as <- _ _ _. unfold ServerModel.handle_doc in E.
      destruct (doc_step T parse (sv_enc T s) (sv_docs T s) ev) as [[m k]|]; [|discriminate]. destruct ev as [u v t|u v cs|u]; try (injection E as <- _ _; exact Hp).
      destruct (update_config e _ [u]) as [[s2 o2] k2] eqn:E2. destruct (update_config_frame _ _ _ _ _ _ E2) as [_ [F _]]. destruct k2; injection E as <- _ _; rewrite F; exact Hp.
    - assert (forall u sp tab, sv_workspaces T (did_change_formatting_options T s u sp tab) = sv_workspaces T s) as D by (intros; unfold did_change_formatting_options; destruct (sv_docs T s u); reflexivity).
      destruct q as [folders utf8 can| |u sp tab|u sp tab r|u kind]; try (injection H as <- _ _ _; first [exact Hp|rewrite D; exact Hp]).
      + destruct (negb (sv_log_tx T s)); [discriminate|]. injection H as <- _ _ _. cbn. apply plain_fold_open. reflexivity.
      + destruct (handle_format_range _ _ _ _ _ _ _ _); [|discriminate]. injection H as <- _ _ _. rewrite D. exact Hp.
  Qed.

  Lemma loop_inv : forall h (s s' : sv) outs st, main_loop s h = (s', outs, st) ->
    plain (sv_workspaces T s) -> no_width s -> plain (sv_workspaces T s') /\ no_width s'.
  Proof.
    induction h as [|[e m] h IH]; intros s s' outs st H Hp Hw; cbn [ServerModel.main_loop] in H.
    - injection H as <- _ _. auto.
    - destruct (handle_event e s m) as [[[[s1 o1] k1] c1]|] eqn:E; [|injection H as <- _ _; auto].
      pose proof (plain_event _ _ _ _ _ _ _ E Hp) as P1. destruct (event_facts _ _ _ _ _ _ _ E) as [_ [_ [_ [_ [_ W]]]]].
      destruct c1; [|injection H as <- _ _; auto]. destruct (main_loop s1 h) as [[s2 o2] st2] eqn:E2. injection H as <- _ _. eapply IH; eauto.
  Qed.

  Lemma fallback_is_default : forall w u st, plain w -> settings_for_url w u = WFallback st -> st = format_settings_default.
  Proof.
    intros w u st Hp. assert (forall p, settings_for_path w p = WFallback st -> st = format_settings_default) as Q.
    { intro p. unfold settings_for_path. rewrite Hp. destruct (resolver_resolve w p) as [[? r]|]; [|congruence]. destruct (resolver_resolve r p) as [[? ?]|]; congruence. }
    unfold settings_for_url. destruct (url_to_path u); [apply Q|]. rewrite Hp. destruct u; try congruence. destruct (items w) as [|[? ?] [|]]; try congruence. apply Q.
  Qed.

  (* the options under which a formatting request is served *)
  Lemma request_options : forall h (s : sv) outs u d sp tab,
    main_loop (server_new T) h = (s, outs, Running) -> sv_docs T s u = Some d ->
    options_for T windows url_of (did_change_formatting_options T s u sp tab) u d
    = match settings_for_url (sv_workspaces T s) (url_of u) with
      | WToml st => to_format_options windows st (d_contents d)
      | WFallback _ => requested_options (to_format_options windows format_settings_default (d_contents d)) sp tab
      end.
  Proof.
    intros h s outs u d sp tab H Hd. destruct (loop_inv _ _ _ _ _ H eq_refl (fun _ => eq_refl)) as [Hp Hw].
    unfold options_for, did_change_formatting_options. rewrite Hd. cbn [sv_workspaces with_settings sv_settings]. rewrite settings_set_same.
    destruct (settings_for_url (sv_workspaces T s) (url_of u)) as [st|st] eqn:E; [reflexivity|]. rewrite (fallback_is_default _ _ _ Hp E).
    unfold workspace_to_format_options, merge_document_settings, requested_options. cbn [d_indent_style d_indent_width d_line_width unwrap_or].
    rewrite Hw, width_read. reflexivity.
  Qed.

  Lemma format_request : forall h (s s' : sv) outs e id u d sp tab outs' ok c,
    main_loop (server_new T) h = (s, outs, Running) -> sv_docs T s u = Some d ->
    handle_event e s (MRequest id (QFormat u sp tab)) = Some (s', outs', ok, c) ->
    let o := match settings_for_url (sv_workspaces T s) (url_of u) with
             | WToml st => to_format_options windows st (d_contents d)
             | WFallback _ => requested_options (to_format_options windows format_settings_default (d_contents d)) sp tab
             end in
    exists x, outs' = [OResponse id (match document_formatting T has_error (print o) dissimilar x (is_notebook (url_of u)) d with
                                    | Edits es => RFormat (Some es) | NoEdits => RFormat None | Failed => RError end)] /\
      (x = true <-> exists p, url_of u = UFile p /\
         match settings_for_url (sv_workspaces T s) (url_of u) with WToml st => excluded st p = true | WFallback _ => excluded format_settings_default p = true end).
  Proof.
    intros h s s' outs e id u d sp tab outs' ok c H Hd He o. cbn [ServerModel.handle_event] in He. injection He as _ <- _ _.
    assert (sv_docs T (did_change_formatting_options T s u sp tab) = sv_docs T s) as Ed by (unfold did_change_formatting_options; destruct (sv_docs T s u); reflexivity).
    assert (sv_workspaces T (did_change_formatting_options T s u sp tab) = sv_workspaces T s) as Ew by (unfold did_change_formatting_options; destruct (sv_docs T s u); reflexivity).
    exists (is_excluded T url_of excluded (did_change_formatting_options T s u sp tab) u). split.
    - unfold handle_format. rewrite Ed, Hd, (request_options _ _ _ _ _ sp tab H Hd). reflexivity.
    - unfold is_excluded. rewrite Ew. destruct (loop_inv _ _ _ _ _ H eq_refl (fun _ => eq_refl)) as [Hp _].
      destruct (url_of u) as [p|?|?|?|?] eqn:Eu; try (split; [discriminate|intros [? [? _]]; discriminate]).
      destruct (settings_for_url (sv_workspaces T s) (UFile p)) as [st|st] eqn:E.
      + split; [intro Q; exists p; auto|intros [p' [E' Q]]; injection E' as <-; exact Q].
      + rewrite (fallback_is_default _ _ _ Hp E). split; [intro Q; exists p; auto|intros [p' [E' Q]]; injection E' as <-; exact Q].
  Qed.

  Lemma failure_contained : forall e (s s' : sv) m outs c, handle_event e s m = Some (s', outs, false, c) ->
    c = Continue /\ sv_workspaces T s' = sv_workspaces T s /\ sv_enc T s' = sv_enc T s /\
    forall u, (forall v t, m <> MDoc (EvOpen u v t)) -> sv_docs T s' u = sv_docs T s u.
  Proof.
    intros e s s' m outs c H. destruct m as [|added removed| |changes|ev|u| |id q]; cbn [ServerModel.handle_event] in H; try discriminate.
    - injection H as <- _ _ <-. auto.
    - destruct (update_config e s (e_order e)) as [[s1 o1] k1] eqn:E. injection H as <- _ _ <-. destruct (update_config_frame _ _ _ _ _ _ E) as [-> [-> [-> _]]]. auto.
    - unfold did_change_watched_files in H. destruct (reload_all _ _ _) as [w b]. discriminate.
    - destruct (handle_doc e s ev) as [[[s1 o1] k1]|] eqn:E; [|discriminate]. injection H as <- _ -> <-. unfold ServerModel.handle_doc in E.
      destruct (doc_step T parse (sv_enc T s) (sv_docs T s) ev) as [[m k]|] eqn:Ed; [|discriminate]. destruct ev as [u v t|u v cs|u].
      + cbn [doc_step] in Ed. injection Ed as <- _. destruct (update_config e _ [u]) as [[s2 o2] k2] eqn:E2. destruct (update_config_frame _ _ _ _ _ _ E2) as [F1 [F2 [F3 _]]].
        destruct k2; [discriminate|]. injection E as <- _. rewrite F1, F2, F3. split; [reflexivity|]. split; [reflexivity|]. split; [reflexivity|].
        intros w Hw. cbn [sv_docs with_settings with_docs]. unfold docs_set. destruct (text_eqb w u) eqn:Ew; [|reflexivity]. apply text_eqb_eq in Ew. subst. exfalso. exact (Hw v t eq_refl).
      + injection E as <- _ ->. cbn [doc_step] in Ed. destruct (sv_docs T s u) as [d|] eqn:Eu.
        * destruct (on_did_change _ _ _ _ _); [|discriminate]. discriminate.
        * injection Ed as <-. auto.
      + injection E as <- _ ->. cbn [doc_step] in Ed. destruct (sv_docs T s u) as [d|] eqn:Eu; [discriminate|]. injection Ed as <-. auto.
    - assert (forall u sp tab, sv_workspaces T (did_change_formatting_options T s u sp tab) = sv_workspaces T s /\ sv_enc T (did_change_formatting_options T s u sp tab) = sv_enc T s /\ sv_docs T (did_change_formatting_options T s u sp tab) = sv_docs T s) as D by (intros; unfold did_change_formatting_options; destruct (sv_docs T s u); auto).
      destruct q as [folders utf8 can| |u sp tab|u sp tab r|u kind]; try discriminate.
      + destruct (negb (sv_log_tx T s)); discriminate.
      + destruct (D u sp tab) as [D1 [D2 D3]]. injection H as <- _ _ <-. rewrite D1, D2, D3. auto.
      + destruct (D u sp tab) as [D1 [D2 D3]]. destruct (handle_format_range _ _ _ _ _ _ _ _); [|discriminate]. injection H as <- _ _ <-. rewrite D1, D2, D3. auto.
      + injection H as <- _ _ <-. auto.
  Qed.
End P.
