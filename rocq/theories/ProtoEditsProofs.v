From Coq Require Import List NArith ZArith Bool Arith Lia Permutation.
From Verif Require Import Text TextFacts LineEndingModel LineEndingSpec LineEndingProofs
  LineIndexModel LineIndexSpec LineIndexProofs DocsModel DocsSpec DocsProofs
  TextEditModel TextEditSpec TextEditProofs ProtoEditsModel ProtoEditsSpec.
Import ListNotations.

(* ---------- C22 ---------- *)
Definition as_change (e : text_edit) : change := {| c_range := Some (te_range e); c_text := te_text e |}.

Lemma start_desc_total : forall a b, start_desc a b = true \/ start_desc b a = true.
Proof. intros. unfold start_desc. rewrite !orb_true_iff, !andb_true_iff, !Nat.ltb_lt, !Nat.eqb_eq, !Nat.leb_le. lia. Qed.
Lemma start_desc_trans : forall a b c, start_desc a b = true -> start_desc b c = true -> start_desc a c = true.
Proof. intros a b c. unfold start_desc. rewrite !orb_true_iff, !andb_true_iff, !Nat.ltb_lt, !Nat.eqb_eq, !Nat.leb_le. lia. Qed.

Lemma sorted_unique : forall (A : Type) (le : A -> A -> bool) l l',
  (forall x y, In x l -> In y l -> le x y = true -> le y x = true -> x = y) ->
  sorted le l -> sorted le l' -> Permutation l l' -> l = l'.
Proof.
  intros A le. induction l as [|x l IH]; intros l' Ha Hl Hl' Hp.
  - apply Permutation_nil in Hp. congruence.
  - destruct l' as [|y l']; [apply Permutation_sym, Permutation_nil in Hp; discriminate|].
    cbn in Hl, Hl'. destruct Hl as [Hx Hl], Hl' as [Hy Hl']. unfold lower in *. rewrite Forall_forall in Hx, Hy.
    assert (x = y) as E.
    { assert (In y (x :: l)) as Iy by (eapply Permutation_in; [apply Permutation_sym; exact Hp|left; reflexivity]).
      assert (In x (y :: l')) as Ix by (eapply Permutation_in; [exact Hp|left; reflexivity]).
      destruct Iy as [Iy|Iy]; [exact Iy|]. destruct Ix as [Ix|Ix]; [symmetry; exact Ix|].
      apply Ha; [left; reflexivity|right; exact Iy|apply Hx; exact Iy|apply Hy; exact Ix]. }
    subst y. f_equal. apply IH; [intros a b Hina Hinb; apply Ha; right; assumption|assumption|assumption|].
    eapply Permutation_cons_inv; exact Hp.
Qed.

Lemma denotes_bounds : forall enc t e d, denotes enc t e d -> in_bounds t d.
Proof.
  intros enc t e d [a [m [b [-> [H1 [H2 _]]]]]]. rewrite blen_app in H2. split; [lia|]. split.
  - exists a, (m ++ b). auto.
  - exists (a ++ m), b. rewrite <- app_assoc, blen_app. split; [reflexivity|lia].
Qed.

Lemma denotes_ordered : forall enc t e d, denotes enc t e d -> ordered (as_change e).
Proof.
  intros enc t e d [a [m [b [-> [H1 [H2 [H3 _]]]]]]]. unfold ordered, as_change. cbn. rewrite H3. cbn. rewrite count_lf_app. lia.
Qed.

(* applying from the last to the first *)
Lemma one_by_one_back : forall enc T0 off t ds t', script off t ds t' -> forall p es, T0 = p ++ t -> blen p = off ->
  Forall2 (denotes enc T0) es ds ->
  one_by_one enc (p ++ t) (map as_change (rev es)) = Some (p ++ t').
Proof.
  intros enc T0 off t ds t' H. induction H as [off t|off k d rest i s e ds rest' Hs He H IH]; intros p es E Hp F.
  - inversion F; subst. reflexivity.
  - destruct es as [|x es2]; [inversion F|].
    assert (denotes enc T0 x {| i_start := s; i_end := e; i_insert := i |} /\ Forall2 (denotes enc T0) es2 ds) as [Hx F2] by (inversion F; auto). clear F.
    cbn [rev]. rewrite map_app, one_by_one_app. cbn [map].
    specialize (IH (p ++ k ++ d) es2). rewrite <- !app_assoc in IH. rewrite !blen_app in IH.
    rewrite IH; [|exact E|lia|exact F2]. cbn [one_by_one]. unfold one_change, as_change. cbn [c_range c_text].
    destruct Hx as [a [m [b [E2 [Ha [Hm [Hr Hi]]]]]]]. cbn [i_start i_end i_insert] in *.
    assert (a = p ++ k /\ m = d) as [-> ->].
    { rewrite E in E2. replace (p ++ k ++ d ++ rest) with ((p ++ k) ++ d ++ rest) in E2 by (rewrite <- app_assoc; reflexivity).
      destruct (app_eq_blen _ _ _ _ E2) as [Q1 Q2]; [rewrite blen_app; lia|]. subst a.
      destruct (app_eq_blen _ _ _ _ Q2) as [Q3 _]; [rewrite !blen_app in *; lia|]. auto. }
    rewrite Hr. unfold text_range. cbn [r_start r_end].
    replace (p ++ k ++ d ++ rest') with ((p ++ k) ++ d ++ rest') by (rewrite <- app_assoc; reflexivity).
    rewrite offset_from_position_spec.
    replace ((p ++ k) ++ d ++ rest') with (((p ++ k) ++ d) ++ rest') by (rewrite <- !app_assoc; reflexivity).
    rewrite offset_from_position_spec.
    destruct (Nat.leb_spec (blen (p ++ k)) (blen ((p ++ k) ++ d))) as [_|Q]; [|rewrite (blen_app (p ++ k)) in Q; lia].
    replace (((p ++ k) ++ d) ++ rest') with ((p ++ k) ++ d ++ rest') by (rewrite <- !app_assoc; reflexivity).
    rewrite replace_range_at, <- Hi, <- app_assoc. reflexivity.
Qed.

Lemma denotes_start_lt : forall enc t e1 d1 e2 d2, denotes enc t e1 d1 -> denotes enc t e2 d2 ->
  i_start d1 < i_start d2 -> pos_lt (r_start (te_range e1)) (r_start (te_range e2)).
Proof.
  intros enc t e1 d1 e2 d2 [a1 [m1 [b1 [E1 [H1 [_ [R1 _]]]]]]] [a2 [m2 [b2 [E2 [H2 [_ [R2 _]]]]]]] L.
  rewrite R1, R2. cbn [r_start]. rewrite E1 in E2. destruct (app_split_blen _ _ _ _ E2 ltac:(lia)) as [m [-> _]].
  apply position_after_mono. intros ->. rewrite app_nil_r in *. lia.
Qed.

(* the permutation that sorts the byte edits, carried over to the protocol edits *)
Lemma forall2_perm : forall (A B : Type) (R : A -> B -> Prop) ds ds', Permutation ds ds' -> forall es, Forall2 R es ds ->
  exists es', Permutation es es' /\ Forall2 R es' ds'.
Proof.
  intros A B R ds ds' H. induction H as [|x l l' H IH|x y l|l l' l'' _ IH1 _ IH2]; intros es F.
  - inversion F; subst. exists []. auto.
  - inversion F as [|e ? es2 ? He F2]; subst. destruct (IH es2 F2) as [es' [P Q]]. exists (e :: es'). split; [apply perm_skip; exact P|constructor; assumption].
  - inversion F as [|e ? es2 ? He F2]; subst. inversion F2 as [|f ? es3 ? Hf F3]; subst. exists (f :: e :: es3). split; [apply perm_swap|repeat constructor; assumption].
  - destruct (IH1 es F) as [es' [P Q]]. destruct (IH2 es' Q) as [es'' [P2 Q2]]. exists es''. split; [rewrite P; exact P2|exact Q2].
Qed.

Lemma forall2_in_l : forall (A B : Type) (R : A -> B -> Prop) es ds, Forall2 R es ds -> forall e, In e es -> exists d, In d ds /\ R e d.
Proof.
  intros A B R es ds F. induction F as [|e d es ds H F IH]; intros x Hx; [contradiction|].
  destruct Hx as [<-|Hx]; [exists d; split; [left; reflexivity|exact H]|]. destruct (IH x Hx) as [d' [H1 H2]]. exists d'. split; [right; exact H1|exact H2].
Qed.

Lemma sorted_app_one : forall (A : Type) (le : A -> A -> bool) l x, sorted le l -> Forall (fun y => le y x = true) l -> sorted le (l ++ [x]).
Proof.
  intros A le. induction l as [|y l IH]; intros x Hs Hf; cbn in *; [repeat constructor|]. destruct Hs as [Hy Hs]. inversion Hf; subst. split.
  - apply Forall_app. split; [exact Hy|repeat constructor; assumption].
  - apply IH; assumption.
Qed.

Definition strictly (ds : list indel) : Prop := ForallOrdPairs (fun a b => i_start a < i_start b) ds.

Lemma rev_sorted_desc : forall enc t es ds, Forall2 (denotes enc t) es ds -> strictly ds -> sorted start_desc (rev es).
Proof.
  intros enc t es ds F. induction F as [|e d es ds H F IH]; intro S; [exact I|]. inversion S as [|? ? S1 S2]; subst. cbn.
  apply sorted_app_one; [apply IH; exact S2|]. apply Forall_forall. intros x Hx. apply in_rev in Hx.
  destruct (forall2_in_l _ _ _ _ _ F x Hx) as [dx [Hin Hd]]. rewrite Forall_forall in S1. specialize (S1 dx Hin).
  pose proof (denotes_start_lt _ _ _ _ _ _ H Hd S1) as L. unfold pos_lt in L. unfold start_desc.
  rewrite orb_true_iff, andb_true_iff, Nat.ltb_lt, Nat.eqb_eq, Nat.leb_le. lia.
Qed.

Lemma nodup_antisym : forall enc t es ds, Forall2 (denotes enc t) es ds -> NoDup (map i_start ds) ->
  forall x y, In x es -> In y es -> start_desc x y = true -> start_desc y x = true -> x = y.
Proof.
  intros enc t es ds F. induction F as [|e d es ds H F IH]; intros N x y Hx Hy H1 H2; [contradiction|].
  cbn in N. inversion N as [|? ? N1 N2]; subst.
  assert (forall z, In z es -> start_desc e z = true -> start_desc z e = true -> False) as Q.
  { intros z Hz A B. destruct (forall2_in_l _ _ _ _ _ F z Hz) as [dz [Hin Hd]].
    unfold start_desc in A, B. rewrite orb_true_iff, andb_true_iff, Nat.ltb_lt, Nat.eqb_eq, Nat.leb_le in A, B.
    destruct (Nat.lt_trichotomy (i_start d) (i_start dz)) as [L|[L|L]].
    - pose proof (denotes_start_lt _ _ _ _ _ _ H Hd L) as P. unfold pos_lt in P. lia.
    - apply N1. rewrite L. apply in_map. exact Hin.
    - pose proof (denotes_start_lt _ _ _ _ _ _ Hd H L) as P. unfold pos_lt in P. lia. }
  destruct Hx as [<-|Hx], Hy as [<-|Hy]; [reflexivity|exfalso; eauto|exfalso; eauto|auto].
Qed.

Lemma nodup_strict : forall ds, sorted key_le ds -> NoDup (map i_start ds) -> strictly ds.
Proof.
  induction ds as [|d ds IH]; intros S N; [constructor|]. cbn in S, N. destruct S as [S1 S2]. inversion N as [|? ? N1 N2]; subst.
  constructor; [|apply IH; assumption]. apply sorted_key_starts in S1. unfold from in S1. rewrite Forall_forall in *. intros x Hx.
  specialize (S1 x Hx). cbn in S1. assert (i_start d <> i_start x) by (intro E; apply N1; rewrite E; apply in_map; exact Hx). lia.
Qed.

Lemma forall2_bounds : forall enc t es ds, Forall2 (denotes enc t) es ds -> Forall (in_bounds t) ds.
Proof. intros enc t es ds F. induction F as [|e d es ds H F IH]; constructor; [eapply denotes_bounds; exact H|exact IH]. Qed.

Lemma text_edits_simultaneous : forall enc t es ds, Forall2 (denotes enc t) es ds ->
  ForallOrdPairs apart ds -> NoDup (map i_start ds) ->
  result (apply_text_edits enc t es (line_index_new t)) = Some (replaced ds 0 t).
Proof.
  intros enc t es ds F Hp Hn.
  pose proof (sort_perm key_le ds) as P. destruct (forall2_perm _ _ _ _ _ P es F) as [es' [Pe Fe]].
  pose proof (sort_sorted key_le key_total key_trans ds) as Hs.
  assert (NoDup (map i_start (sort_by key_le ds))) as Hn2 by (eapply Permutation_NoDup; [apply Permutation_map; exact P|exact Hn]).
  pose proof (forall2_bounds _ _ _ _ Fe) as Hb.
  assert (in_order (sort_by key_le ds)) as Ho.
  { apply pairs_in_order; [exact Hs|eapply bounds_ok; exact Hb|]. eapply pairs_perm; [|exact P|exact Hp]. unfold apart. intros x y [H|H]; auto. }
  assert (sort_by start_desc es = rev es') as E.
  { apply sorted_unique with (le := start_desc).
    - intros x y Hx Hy. apply (nodup_antisym _ _ _ _ F Hn); eapply Permutation_in; try eassumption; apply Permutation_sym, sort_perm.
    - apply sort_sorted; [exact start_desc_total|exact start_desc_trans].
    - eapply rev_sorted_desc; [exact Fe|apply nodup_strict; assumption].
    - rewrite <- sort_perm, Pe. apply Permutation_rev. }
  unfold apply_text_edits. rewrite E.
  assert (forall x, In x es' -> ordered (as_change x)) as Hord.
  { intros x Hx. destruct (forall2_in_l _ _ _ _ _ Fe x Hx) as [d [_ Hd]]. eapply denotes_ordered. exact Hd. }
  rewrite batch_incremental.
  - destruct (script_exists _ [] t Ho (from_0 _) Hb) as [t' S]. cbn [blen] in S.
    pose proof (one_by_one_back enc t _ _ _ _ S [] es' eq_refl eq_refl Fe) as R. cbn [app] in R. unfold as_change in R. rewrite R.
    rewrite <- (replaced_script _ _ _ _ S). f_equal. apply replaced_rearranged; [|exact Hp].
    split; [exact P|]. intros p Hc. apply sort_filter. exact Hc.
  - apply Forall_forall. intros c Hc. apply in_map_iff in Hc. destruct Hc as [x [<- Hx]]. apply Hord. apply in_rev. exact Hx.
  - apply Forall_forall. intros c Hc. apply in_map_iff in Hc. destruct Hc as [x [<- _]]. unfold incremental. cbn. discriminate.
Qed.

(* ---------- C27 ---------- *)
Lemma lf_to_crlf_app : forall a b, lf_to_crlf (a ++ b) = lf_to_crlf a ++ lf_to_crlf b.
Proof. intros. unfold lf_to_crlf. apply flat_map_app. Qed.
Lemma lf_to_crlf_spec : forall t, lf_to_crlf t = to_crlf t.
Proof. induction t as [|c t IH]; cbn; [reflexivity|]. destruct (c =? LF)%N; cbn; unfold lf_to_crlf in IH; rewrite IH; reflexivity. Qed.

Lemma no_cr_app : forall a b, no_cr (a ++ b) <-> no_cr a /\ no_cr b.
Proof. intros. unfold no_cr. rewrite in_app_iff. tauto. Qed.
Lemma no_cr_cons : forall c a, no_cr (c :: a) <-> c <> CR /\ no_cr a.
Proof. intros. unfold no_cr. cbn. split; intro H; [split; [intros ->; apply H; auto|tauto]|intros [E|E]; [apply (proj1 H); exact E|tauto]]. Qed.

Lemma no_cr_paired : forall t, no_cr t -> paired t.
Proof. induction t as [|c t IH]; intro H; [constructor|]. apply no_cr_cons in H. constructor; [apply H|apply IH; apply H]. Qed.

Lemma to_crlf_paired : forall t, no_cr t -> paired (to_crlf t).
Proof.
  induction t as [|c t IH]; intro H; [constructor|]. apply no_cr_cons in H. destruct H as [H1 H2]. cbn.
  destruct (c =? LF)%N; [apply PEnd|apply PChar; [exact H1|]]; apply IH; exact H2.
Qed.

Lemma normalize_paired_no_cr : forall t, paired t -> no_cr (normalize t).
Proof.
  intros t H. induction H as [|c r Hc H IH|r H IH].
  - intros [].
  - rewrite normalize_cons by exact Hc. apply no_cr_cons. auto.
  - rewrite normalize_end. apply no_cr_cons. split; [discriminate|exact IH].
Qed.

Lemma normalize_no_cr : forall t, no_cr t -> normalize t = t.
Proof.
  intros t H. induction t as [|c t IH]; [reflexivity|]. apply no_cr_cons in H. rewrite normalize_cons by apply H. rewrite IH by apply H. reflexivity.
Qed.

(* splitting the editor's text where the server's text is split *)
Lemma paired_split : forall v, paired v -> forall a b, normalize v = a ++ b ->
  exists va vb, v = va ++ vb /\ paired va /\ paired vb /\ normalize va = a /\ normalize vb = b.
Proof.
  intros v H. induction H as [|c r Hc H IH|r H IH]; intros a b E.
  - cbn in E. symmetry in E. apply app_eq_nil in E. destruct E as [-> ->]. exists [], []. repeat split; constructor.
  - rewrite normalize_cons in E by exact Hc. destruct a as [|x a].
    + exists [], (c :: r). cbn in E. rewrite <- E, <- (normalize_cons c r Hc). split; [reflexivity|]. split; [constructor|]. split; [constructor; assumption|]. split; reflexivity.
    + cbn in E. injection E as <- E. destruct (IH a b E) as [va [vb [-> [H1 [H2 [<- <-]]]]]]. exists (c :: va), vb.
      split; [reflexivity|]. split; [constructor; assumption|]. split; [exact H2|]. split; [apply normalize_cons; exact Hc|reflexivity].
  - rewrite normalize_end in E. destruct a as [|x a].
    + exists [], (CR :: LF :: r). cbn in E. rewrite <- E, <- normalize_end. split; [reflexivity|]. split; [constructor|]. split; [constructor; assumption|]. split; reflexivity.
    + cbn in E. injection E as <- E. destruct (IH a b E) as [va [vb [-> [H1 [H2 [<- <-]]]]]]. exists (CR :: LF :: va), vb.
      split; [reflexivity|]. split; [constructor; assumption|]. split; [exact H2|]. split; [apply normalize_end|reflexivity].
Qed.

Lemma paired_prefix_unique : forall a, paired a -> forall b x y, paired b -> a ++ x = b ++ y -> normalize a = normalize b -> a = b.
Proof.
  intros a Ha. induction Ha as [|c r Hc H IH|r H IH]; intros b x y Hb E N.
  - inversion Hb as [|c r Hc H|r H]; subst; [reflexivity| |]; exfalso.
    + rewrite normalize_cons in N by exact Hc. discriminate.
    + rewrite normalize_end in N. discriminate.
  - inversion Hb as [|c' r' Hc' H'|r' H']; subst.
    + rewrite normalize_cons in N by exact Hc. discriminate.
    + cbn in E. injection E as -> E. rewrite !normalize_cons in N by exact Hc. injection N as N. f_equal. eapply IH; eassumption.
    + cbn in E. injection E as -> E. contradiction.
  - inversion Hb as [|c' r' Hc' H'|r' H']; subst.
    + rewrite normalize_end in N. discriminate.
    + cbn in E. injection E as <- E. contradiction.
    + cbn in E. injection E as E. rewrite !normalize_end in N. injection N as N. f_equal. f_equal. eapply IH; eassumption.
Qed.

Lemma paired_app_inv : forall a b, paired a -> paired (a ++ b) -> paired b.
Proof.
  intros a b H. induction H as [|c r Hc H IH|r H IH]; intro P; [exact P| |]; apply IH; inversion P as [|? ? Q1 Q2|? Q]; subst; try assumption; contradiction.
Qed.

Lemma position_after_inj : forall enc a b x y, a ++ x = b ++ y -> position_after enc a = position_after enc b -> a = b.
Proof.
  intros enc a b x y E P. destruct (Nat.le_ge_cases (blen a) (blen b)) as [L|L].
  - destruct (app_split_blen _ _ _ _ E L) as [m [-> _]]. destruct m as [|c m]; [rewrite app_nil_r; reflexivity|].
    pose proof (position_after_mono enc a (c :: m) ltac:(discriminate)) as Q. rewrite <- P in Q. unfold pos_lt in Q. lia.
  - symmetry in E. destruct (app_split_blen _ _ _ _ E L) as [m [-> _]]. destruct m as [|c m]; [rewrite app_nil_r; reflexivity|].
    pose proof (position_after_mono enc b (c :: m) ltac:(discriminate)) as Q. rewrite P in Q. unfold pos_lt in Q. lia.
Qed.

Lemma editor_prefix_inj : forall enc a b x y, paired a -> paired b -> paired (a ++ x) -> a ++ x = b ++ y ->
  editor_position enc a 0 0 = editor_position enc b 0 0 -> a = b.
Proof.
  intros enc a b x y Ha Hb Hx E P. rewrite !editor_position_normalized in P by assumption.
  eapply paired_prefix_unique; [exact Ha|exact Hb|exact E|].
  apply (position_after_inj enc _ _ (normalize x) (normalize y)); [|exact P]. rewrite <- !normalize_app by assumption. congruence.
Qed.

Lemma client_deterministic : forall enc pre rest es r1, client_edits enc pre rest es r1 -> paired pre -> paired rest ->
  forall r2, client_edits enc pre rest es r2 -> r1 = r2.
Proof.
  intros enc pre rest es r1 H. induction H as [pre rest|pre keep gone rest x es rest' Hk Hg H IH]; intros Hp Hr r2 H2.
  - inversion H2; subst. reflexivity.
  - inversion H2 as [|? keep2 gone2 rest2 ? ? rest2' Hk2 Hg2 H3 E0 E E1 E2]; subst.
    symmetry in E.
    assert (paired (pre ++ keep)) as P1 by (apply paired_app; assumption).
    assert (paired (pre ++ keep2)) as P2 by (apply paired_app; assumption).
    assert (keep = keep2) as ->.
    { apply app_inv_head with (l := pre). eapply editor_prefix_inj with (x := gone ++ rest) (y := gone2 ++ rest2) (enc := enc); try assumption.
      - rewrite <- app_assoc. apply paired_app; assumption.
      - rewrite <- !app_assoc. f_equal. exact E.
      - congruence. }
    apply app_inv_head in E.
    assert (gone = gone2) as ->.
    { apply app_inv_head with (l := pre ++ keep2). eapply editor_prefix_inj with (x := rest) (y := rest2) (enc := enc).
      - apply paired_app; assumption.
      - apply paired_app; assumption.
      - rewrite <- !app_assoc. apply paired_app; [assumption|exact Hr].
      - rewrite <- !app_assoc. f_equal. f_equal. exact E.
      - rewrite <- !app_assoc. congruence. }
    apply app_inv_head in E. subst rest2. f_equal. f_equal. apply IH; [|apply paired_app_inv with (a := keep2 ++ gone2)|exact H3].
    + rewrite app_assoc. apply paired_app; assumption.
    + apply paired_app; assumption.
    + rewrite <- app_assoc. exact Hr.
Qed.

Definition converted (endings : line_ending) (x : text) : text := match endings with Lf => x | Crlf => lf_to_crlf x end.

(* the protocol edits of a script *)
Lemma edits_of_script : forall enc T0 e off t ds t', script off t ds t' -> forall p, T0 = p ++ t -> blen p = off ->
  exists tes, text_edit_vec enc (line_index_new T0) e ds = Some tes /\
  (forall pre v, paired pre -> paired v -> normalize pre = p -> normalize v = t ->
    exists v', client_edits enc pre v tes v' /\ (Forall (fun d => no_cr (i_insert d)) ds -> paired v' /\ normalize v' = t')) /\
  (forall pre, paired pre -> normalize pre = p -> no_cr t -> client_edits enc pre (converted e t) tes (converted e t')).
Proof.
  intros enc T0 e off t ds t' H. induction H as [off t|off k d rest i s en ds rest' Hs He H IH]; intros p E Hp.
  - exists []. split; [reflexivity|]. split.
    + intros pre v _ Pv _ Nv. exists v. split; [constructor|]. intros _. auto.
    + intros. constructor.
  - destruct (IH (p ++ k ++ d)) as [tes [T1 [T2 T3]]].
    { rewrite E. rewrite <- !app_assoc. reflexivity. }
    { rewrite !blen_app. lia. }
    cbn [text_edit_vec]. rewrite T1. unfold text_edit_of, range_to_proto. cbn [i_start i_end i_insert].
    assert (position_from_offset enc (line_index_new T0) s = Some (position_after enc (p ++ k))) as ->.
    { rewrite E. replace (p ++ k ++ d ++ rest) with ((p ++ k) ++ d ++ rest) by (rewrite <- app_assoc; reflexivity).
      replace s with (blen (p ++ k)) by (rewrite blen_app; lia). apply position_from_offset_spec. }
    assert (position_from_offset enc (line_index_new T0) en = Some (position_after enc (p ++ k ++ d))) as ->.
    { rewrite E. replace (p ++ k ++ d ++ rest) with ((p ++ k ++ d) ++ rest) by (rewrite <- !app_assoc; reflexivity).
      replace en with (blen (p ++ k ++ d)) by (rewrite !blen_app; lia). apply position_from_offset_spec. }
    eexists. split; [reflexivity|].
    assert (forall pre keep gone, paired pre -> paired keep -> paired gone -> normalize pre = p -> normalize keep = k -> normalize gone = d ->
      {| r_start := position_after enc (p ++ k); r_end := position_after enc (p ++ k ++ d) |}
      = {| r_start := editor_position enc (pre ++ keep) 0 0; r_end := editor_position enc (pre ++ keep ++ gone) 0 0 |}) as Hpos.
    { intros pre keep gone P1 P2 P3 N1 N2 N3. rewrite !editor_position_normalized by (repeat apply paired_app; assumption).
      rewrite !normalize_app by (repeat apply paired_app; assumption). rewrite N1, N2, N3. reflexivity. }
    split.
    + intros pre v Ppre Pv Npre Nv. destruct (paired_split v Pv k (d ++ rest) Nv) as [keep [v2 [-> [Pk [Pv2 [Nk Nv2]]]]]].
      destruct (paired_split v2 Pv2 d rest Nv2) as [gone [v3 [-> [Pg [Pv3 [Ng Nv3]]]]]].
      destruct (T2 (pre ++ keep ++ gone) v3) as [v' [C1 C2]].
      * repeat apply paired_app; assumption.
      * exact Pv3.
      * rewrite !normalize_app by assumption. congruence.
      * exact Nv3.
      * exists (keep ++ converted e i ++ v'). split.
        -- rewrite (Hpos pre keep gone) by assumption. apply CEdit; assumption.
        -- intro F. inversion F as [|? ? F1 F2]; subst. cbn in F1. destruct (C2 F2) as [Q1 Q2].
           assert (paired (converted e i) /\ normalize (converted e i) = i) as [R1 R2].
           { destruct e; cbn.
             - split; [apply no_cr_paired; exact F1|apply normalize_no_cr; exact F1].
             - rewrite lf_to_crlf_spec. split; [apply to_crlf_paired; exact F1|apply normalize_to_crlf; exact F1]. }
           split; [repeat apply paired_app; assumption|]. rewrite !normalize_app by assumption. congruence.
    + intros pre Ppre Npre Nt. rewrite !no_cr_app in Nt. destruct Nt as [N1 [N2 N3]].
      assert (forall x y, converted e (x ++ y) = converted e x ++ converted e y) as Ca by (intros; destruct e; cbn; [reflexivity|apply lf_to_crlf_app]).
      assert (forall x, no_cr x -> paired (converted e x) /\ normalize (converted e x) = x) as Cn.
      { intros x Hx. destruct e; cbn.
        - split; [apply no_cr_paired; exact Hx|apply normalize_no_cr; exact Hx].
        - rewrite lf_to_crlf_spec. split; [apply to_crlf_paired; exact Hx|apply normalize_to_crlf; exact Hx]. }
      destruct (Cn k N1) as [A1 A2]. destruct (Cn d N2) as [B1 B2]. rewrite !Ca.
      rewrite (Hpos pre (converted e k) (converted e d)) by assumption.
      apply CEdit; [assumption|assumption|]. apply T3; [repeat apply paired_app; assumption| |exact N3].
      rewrite !normalize_app by assumption. congruence.
Qed.

Lemma diff_script : forall cs, exists es, diff cs = Some es /\ script 0 (old_text cs) es (new_text cs) /\
  (forall c, In c (flat_map i_insert es) -> In c (new_text cs)).
Proof.
  intro cs. destruct (diff_correct cs) as [es [E1 [E2 [E3 [E4 E5]]]]]. exists es. split; [exact E1|].
  assert (in_order es) as Ho by (clear - E2; induction E2; constructor; [lia|assumption]).
  destruct (script_exists es [] (old_text cs) Ho (from_0 _) E3) as [t' S]. cbn [blen] in S.
  assert (t' = new_text cs) as -> by (rewrite <- E5; symmetry; apply (replaced_script _ _ _ _ S)).
  split; [exact S|]. clear - S. induction S as [|off k d rest i s e es rest' Hs He S IH]; intros c Hc; [contradiction|].
  cbn in Hc. apply in_app_or in Hc. rewrite !in_app_iff. destruct Hc as [Hc|Hc]; [tauto|right; right; apply IH; exact Hc].
Qed.

Lemma no_cr_inserts : forall es x, (forall c, In c (flat_map i_insert es) -> In c x) -> no_cr x -> Forall (fun d => no_cr (i_insert d)) es.
Proof.
  intros es x H Hx. apply Forall_forall. intros d Hd Hc. apply Hx. apply H. apply in_flat_map. exists d. auto.
Qed.

Lemma replace_all_client : forall dis enc e t x, diff_contract dis ->
  exists tes, replace_all_edit dis t x (line_index_new t) enc e = Some tes /\
  (forall u, paired u -> normalize u = t -> no_cr x ->
     exists u', client_edits enc [] u tes u' /\ normalize u' = x /\ paired u' /\ forall u2, client_edits enc [] u tes u2 -> u2 = u') /\
  (no_cr t -> forall u', client_edits enc [] (converted e t) tes u' <-> u' = converted e x).
Proof.
  intros dis enc e t x Hd. destruct (Hd t x) as [D1 D2].
  destruct (diff_script (dis t x)) as [ds [E1 [S Hin]]]. rewrite D1, D2 in S. rewrite D2 in Hin.
  destruct (edits_of_script enc t e _ _ _ _ S [] eq_refl eq_refl) as [tes [T1 [T2 T3]]].
  exists tes. unfold replace_all_edit. rewrite E1. split; [exact T1|]. split.
  - intros u Pu Nu Nx. destruct (T2 [] u (PNil) Pu eq_refl Nu) as [u' [C1 C2]].
    destruct (C2 (no_cr_inserts _ _ Hin Nx)) as [Q1 Q2]. exists u'. split; [exact C1|]. split; [exact Q2|]. split; [exact Q1|].
    intros u2 H2. eapply client_deterministic; [exact H2|constructor|exact Pu|exact C1].
  - intros Nt u'. pose proof (T3 [] PNil eq_refl Nt) as C. split; [|intros ->; exact C].
    intro H. eapply client_deterministic; [exact H|constructor| |exact C].
    destruct e; cbn; [apply no_cr_paired; exact Nt|rewrite lf_to_crlf_spec; apply to_crlf_paired; exact Nt].
Qed.

Section F.
  Context {T : Type} (parse : text -> T) (has_error : T -> bool) (print : text -> option text).
  Context (dis : text -> text -> list chunk) (Hdis : diff_contract dis).

  Lemma formatting_client : forall enc d u v es notebook out,
    in_step parse enc d u v -> paired u ->
    document_formatting T has_error print dis false notebook d = Edits es ->
    print (normalize u) = Some out ->
    let x := if notebook then pop_lf out else out in
    (no_cr u -> d_endings d = Lf -> forall u', client_edits enc [] u es u' <-> u' = x) /\
    (u = to_crlf (normalize u) -> d_endings d = Crlf -> forall u', client_edits enc [] u es u' <-> u' = to_crlf x) /\
    (no_cr x -> exists u', client_edits enc [] u es u' /\ normalize u' = x /\ paired u' /\ forall u2, client_edits enc [] u es u2 -> u2 = u').
  Proof.
    intros enc d u v es notebook out [D1 [D2 [D3 [D4 D5]]]] Pu H Hout x.
    unfold document_formatting in H. rewrite D1, D2, D5 in H. destruct (has_error (d_parse d)); [discriminate|].
    rewrite Hout in H. destruct ((blen (normalize u) =? blen out) && text_eqb (normalize u) out); [discriminate|].
    destruct (replace_all_client dis enc (d_endings d) (normalize u) x Hdis) as [tes [R1 [R2 R3]]].
    fold x in H. rewrite R1 in H. injection H as <-. pose proof (normalize_paired_no_cr u Pu) as Nn.
    split; [|split].
    - intros Nu Ee. specialize (R3 Nn). rewrite Ee in R3. cbn in R3. rewrite (normalize_no_cr u Nu) in R3. exact R3.
    - intros Eu Ee. specialize (R3 Nn). rewrite Ee in R3. cbn in R3. rewrite !lf_to_crlf_spec in R3. rewrite Eu. exact R3.
    - intro Nx. apply R2; [exact Pu|reflexivity|exact Nx].
  Qed.

  Lemma formatting_replies : forall enc d u v excluded notebook,
    in_step parse enc d u v ->
    match document_formatting T has_error print dis excluded notebook d with
    | Edits _ => excluded = false /\ has_error (parse (normalize u)) = false /\
                 exists out, print (normalize u) = Some out /\ out <> normalize u
    | NoEdits => excluded = true \/ has_error (parse (normalize u)) = true \/ print (normalize u) = Some (normalize u)
    | Failed => print (normalize u) = None
    end.
  Proof.
    intros enc d u v excluded notebook [D1 [D2 [D3 [D4 D5]]]]. unfold document_formatting. rewrite D1, D2, D3, D5.
    destruct excluded; [left; reflexivity|]. destruct (has_error (parse (normalize u))) eqn:Eh; [right; left; reflexivity|].
    destruct (print (normalize u)) as [out|]; [|reflexivity].
    destruct (text_eqb (normalize u) out) eqn:Et.
    - apply text_eqb_eq in Et. subst out. rewrite Nat.eqb_refl. cbn. right. right. reflexivity.
    - rewrite andb_false_r.
      destruct (replace_all_client dis enc (d_endings d) (normalize u) (if notebook then pop_lf out else out) Hdis) as [tes [R1 _]]. rewrite R1.
      split; [reflexivity|]. split; [reflexivity|]. exists out. split; [reflexivity|]. intros ->. rewrite text_eqb_refl in Et. discriminate.
  Qed.
End F.

Lemma text_edits_order : forall enc t es es' ds, Forall2 (denotes enc t) es ds ->
  NoDup (map i_start ds) -> Permutation es es' -> forall li,
  apply_text_edits enc t es li = apply_text_edits enc t es' li.
Proof.
  intros enc t es es' ds F Hn P li. unfold apply_text_edits. f_equal. f_equal.
  apply sorted_unique with (le := start_desc).
  - intros x y Hx Hy. apply (nodup_antisym _ _ _ _ F Hn); eapply Permutation_in; try eassumption; apply Permutation_sym, sort_perm.
  - apply sort_sorted; [exact start_desc_total|exact start_desc_trans].
  - apply sort_sorted; [exact start_desc_total|exact start_desc_trans].
  - rewrite <- sort_perm, P. apply sort_perm.
Qed.

Lemma auto_is_lf : forall windows u, paired u -> finalize windows SAuto (normalize u) = Lf.
Proof.
  intros windows u H. cbn. destruct (infer (normalize u)) eqn:E; [reflexivity|]. exfalso.
  apply infer_spec in E. pose proof (normalize_paired_no_cr u H) as N. apply N. destruct E as [i E]. unfold crlf_at in E.
  destruct (nth_error (normalize u) i) as [c|] eqn:En; [|discriminate]. destruct (nth_error (normalize u) (S i)); [|discriminate].
  apply andb_true_iff in E. destruct E as [E _]. apply N.eqb_eq in E. subst c. eapply nth_error_In. exact En.
Qed.

Lemma no_cr_infer : forall u, no_cr u -> infer u = Lf.
Proof. intros u H. rewrite <- (normalize_no_cr u H). apply (auto_is_lf false). apply no_cr_paired. exact H. Qed.

Lemma paired_infer : forall u, paired u -> infer u = Lf -> no_cr u.
Proof.
  intros u H E. assert (~ has_crlf u) as N by (rewrite <- infer_spec; congruence). clear E.
  induction H as [|c r Hc H IH|r H IH]; [intros []| |].
  - apply no_cr_cons. split; [exact Hc|]. apply IH. intros [i Hi]. apply N. exists (S i). exact Hi.
  - exfalso. apply N. exists 0. reflexivity.
Qed.

Lemma cell_end_spec : forall notebook y x, cell_end notebook y x -> (if notebook then pop_lf y else y) = x.
Proof.
  intros [|] y x H; [|symmetry; exact H]. unfold pop_lf. destruct H as [->|[-> H]].
  - rewrite rev_app_distr. cbn. apply rev_involutive.
  - destruct (rev y) as [|c r] eqn:E; [reflexivity|]. destruct (N.eqb_spec c LF) as [->|_]; [|reflexivity].
    destruct (H (rev r)). rewrite <- (rev_involutive y), E. reflexivity.
Qed.

Lemma formatted_document : forall (T : Type) (parse : text -> T) has_error fmt dis windows setting enc d u v es y notebook,
  diff_contract dis -> in_step parse enc d u v -> uniform u -> d_endings d = infer u ->
  setting = SAuto \/ setting = SLf ->
  fmt (normalize u) = Some y ->
  document_formatting T has_error (printed windows setting fmt) dis false notebook d = Edits es ->
  let x := if notebook then pop_lf y else y in
  forall u', client_edits enc [] u es u' <-> u' = match infer u with Lf => x | Crlf => to_crlf x end.
Proof.
  intros T parse has_error fmt dis windows setting enc d u v es y notebook Hd Hs Hu He Hset Hf H x.
  assert (paired u) as Pu.
  { destruct Hu as [Hu|[t [Ht ->]]]; [apply no_cr_paired; exact Hu|apply to_crlf_paired; exact Ht]. }
  assert (printed windows setting fmt (normalize u) = Some y) as Hp.
  { unfold printed. rewrite Hf. destruct Hset as [-> | ->]; [rewrite auto_is_lf by exact Pu; reflexivity|reflexivity]. }
  destruct (formatting_client parse has_error (printed windows setting fmt) dis Hd enc d u v es notebook y Hs Pu H Hp) as [A [B _]].
  fold x in A, B. destruct (infer u) eqn:E.
  - apply A; [apply paired_infer; assumption|exact He].
  - apply B; [|exact He]. destruct Hu as [Hu|[t [Ht Hu]]]; [rewrite no_cr_infer in E by exact Hu; discriminate|].
    rewrite Hu at 1. f_equal. rewrite Hu. symmetry. apply normalize_to_crlf. exact Ht.
Qed.

Lemma formatted_document_cell : forall (T : Type) (parse : text -> T) has_error fmt dis windows setting enc d u v es y notebook,
  diff_contract dis -> in_step parse enc d u v -> uniform u -> d_endings d = infer u ->
  setting = SAuto \/ setting = SLf ->
  fmt (normalize u) = Some y ->
  document_formatting T has_error (printed windows setting fmt) dis false notebook d = Edits es ->
  forall x, cell_end notebook y x ->
  forall u', client_edits enc [] u es u' <-> u' = match infer u with Lf => x | Crlf => to_crlf x end.
Proof.
  intros T parse has_error fmt dis windows setting enc d u v es y notebook Hd Hs Hu He Hset Hf H x Hx.
  rewrite <- (cell_end_spec _ _ _ Hx). eapply formatted_document; eassumption.
Qed.

Lemma formatting_client_cell : forall (T : Type) (parse : text -> T) has_error print dis, diff_contract dis ->
  forall enc d u v es notebook out,
  in_step parse enc d u v -> paired u ->
  document_formatting T has_error print dis false notebook d = Edits es ->
  print (normalize u) = Some out ->
  forall x, cell_end notebook out x ->
  (no_cr u -> d_endings d = Lf -> forall u', client_edits enc [] u es u' <-> u' = x) /\
  (u = to_crlf (normalize u) -> d_endings d = Crlf -> forall u', client_edits enc [] u es u' <-> u' = to_crlf x) /\
  (no_cr x -> exists u', client_edits enc [] u es u' /\ normalize u' = x /\ paired u' /\
     forall u2, client_edits enc [] u es u2 -> u2 = u').
Proof.
  intros T parse has_error print dis Hd enc d u v es notebook out Hs Hp H Ho x Hx.
  rewrite <- (cell_end_spec _ _ _ Hx).
  exact (formatting_client parse has_error print dis Hd enc d u v es notebook out Hs Hp H Ho).
Qed.
