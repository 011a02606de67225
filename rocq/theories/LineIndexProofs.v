From Coq Require Import List NArith Bool Arith Lia.
From Verif Require Import Text TextFacts BinSearchModel BinSearchProofs LineIndexModel LineIndexSpec.
Import ListNotations.

Lemma count_lf_app : forall a b, count_lf (a ++ b) = count_lf a + count_lf b.
Proof. induction a as [|c a IH]; intro b; cbn; [reflexivity|]. rewrite IH. lia. Qed.

Lemma units_app : forall enc a b, units enc (a ++ b) = units enc a + units enc b.
Proof. intro enc. induction a as [|c a IH]; intro b; cbn; [reflexivity|]. rewrite IH. lia. Qed.

Lemma units_utf8 : forall t, units EUtf8 t = blen t.
Proof. induction t as [|c t IH]; cbn; [reflexivity|]. rewrite IH. reflexivity. Qed.

Lemma after_last_lf_none : forall t, count_lf t = 0 -> after_last_lf t = t.
Proof.
  intros [|c t] H; cbn in *; [reflexivity|].
  destruct (c =? LF)%N; [lia|]. cbn in H. rewrite H. reflexivity.
Qed.

Lemma after_last_lf_snoc : forall t c,
  after_last_lf (t ++ [c]) = if (c =? LF)%N then [] else after_last_lf t ++ [c].
Proof.
  induction t as [|d t IH]; intro c; cbn [after_last_lf app count_lf].
  - cbn. destruct (c =? LF)%N; reflexivity.
  - rewrite count_lf_app. cbn [count_lf]. rewrite IH.
    destruct (c =? LF)%N eqn:E; cbn.
    + destruct (count_lf t + 1 =? 0) eqn:E2; [apply Nat.eqb_eq in E2; lia|]. reflexivity.
    + rewrite Nat.add_0_r. destruct (count_lf t =? 0); [|reflexivity].
      destruct (d =? LF)%N; reflexivity.
Qed.

Lemma after_last_lf_suffix : forall t, exists p, t = p ++ after_last_lf t /\ count_lf (after_last_lf t) = 0 /\ count_lf p = count_lf t
  /\ (p = [] \/ exists q, p = q ++ [LF]).
Proof.
  intro t. induction t as [|c t IH] using rev_ind.
  - exists []. cbn. auto.
  - rewrite after_last_lf_snoc, count_lf_app. cbn [count_lf]. destruct (c =? LF)%N eqn:E.
    + apply N.eqb_eq in E. subst c. exists (t ++ [LF]). rewrite app_nil_r, count_lf_app. cbn. eauto 10.
    + destruct IH as [p [H1 [H2 [H3 H4]]]]. exists p. rewrite app_assoc, <- H1. split; [reflexivity|].
      rewrite count_lf_app. cbn. rewrite E. cbn. split; [lia|]. split; [lia|exact H4].
Qed.

Lemma after_last_lf_app : forall a b, count_lf b <> 0 -> after_last_lf (a ++ b) = after_last_lf b.
Proof.
  induction a as [|c a IH]; intros b H; cbn [app after_last_lf]; [reflexivity|].
  rewrite count_lf_app. destruct (count_lf a + count_lf b =? 0) eqn:E; [apply Nat.eqb_eq in E; lia|].
  apply IH. exact H.
Qed.

Lemma after_last_lf_app0 : forall a b, count_lf b = 0 -> after_last_lf (a ++ b) = after_last_lf a ++ b.
Proof.
  intros a b. revert a. induction b as [|c b IH] using rev_ind; intros a H; [rewrite !app_nil_r; reflexivity|].
  rewrite count_lf_app in H. cbn in H. destruct (c =? LF)%N eqn:E; [lia|]. cbn in H.
  rewrite app_assoc, after_last_lf_snoc, E, IH by lia. rewrite app_assoc. reflexivity.
Qed.

(* up to the first line feed *)
Fixpoint head_line (t : text) : text :=
  match t with [] => [] | c :: r => if (c =? LF)%N then [] else c :: head_line r end.

Fixpoint wides (col : nat) (t : text) : list wide_char :=
  match t with
  | [] => []
  | c :: r => (if is_ascii c then [] else [{| wc_start := col; wc_end := col + utf8_len c |}])
              ++ wides (col + utf8_len c) r
  end.

Lemma wides_app : forall a col b, wides col (a ++ b) = wides col a ++ wides (col + blen a) b.
Proof.
  induction a as [|c a IH]; intros col b; cbn.
  - rewrite Nat.add_0_r. reflexivity.
  - rewrite IH, <- app_assoc, Nat.add_assoc. reflexivity.
Qed.

Definition run (t : text) : li_state := fold_left li_step t li_init.

Lemma run_snoc : forall t c, run (t ++ [c]) = li_step (run t) c.
Proof. intros. unfold run. rewrite fold_left_app. reflexivity. Qed.

Lemma run_facts : forall t,
  st_offset (run t) = blen t /\ st_line (run t) = count_lf t /\
  st_col (run t) = blen (after_last_lf t) /\ st_wide (run t) = wides 0 (after_last_lf t) /\
  length (st_newlines (run t)) = S (count_lf t) /\
  nth_error (st_newlines (run t)) (count_lf t) = Some (blen t - blen (after_last_lf t)) /\
  (forall x, In x (st_newlines (run t)) -> x <= blen t) /\
  (forall e, In e (st_map (run t)) -> fst e < count_lf t).
Proof.
  intro t. induction t as [|c t IH] using rev_ind.
  - cbn. do 6 (split; [reflexivity|]). split; [intros x [<-|[]]; lia|contradiction].
  - rewrite run_snoc, after_last_lf_snoc, blen_app, count_lf_app. cbn [blen count_lf].
    destruct IH as [H1 [H2 [H3 [H4 [H5 [H6 [H7 H8]]]]]]].
    destruct (after_last_lf_suffix t) as [p [Hp _]].
    assert (blen (after_last_lf t) <= blen t) by (rewrite Hp at 2; rewrite blen_app; lia).
    unfold li_step. destruct (c =? LF)%N; cbn [st_offset st_line st_col st_wide st_newlines st_map].
    + split; [lia|]. split; [lia|]. split; [reflexivity|]. split; [reflexivity|].
      rewrite app_length, H5, H1. cbn [length]. split; [lia|]. split.
      * rewrite nth_error_app2 by lia. rewrite H5. replace (count_lf t + (1 + 0) - S (count_lf t)) with 0 by lia.
        cbn. f_equal. lia.
      * split.
        -- intros x Hx. apply in_app_or in Hx. destruct Hx as [Hx|[<-|[]]]; [apply H7 in Hx|]; lia.
        -- intros e He. unfold save_wide in He. destruct (st_wide (run t)).
           ++ apply H8 in He. lia.
           ++ apply in_app_or in He. destruct He as [He|[<-|[]]]; [apply H8 in He; lia|]. cbn [fst]. lia.
    + rewrite blen_app, wides_app, H1, H3, H4. cbn [blen wides]. rewrite app_nil_r.
      split; [lia|]. split; [lia|]. split; [lia|]. split.
      { destruct (is_ascii c); [rewrite app_nil_r|]; reflexivity. }
      split; [lia|]. split.
      { rewrite !Nat.add_0_r. rewrite H6. f_equal. lia. }
      split.
      * intros x Hx. apply H7 in Hx. lia.
      * intros e He. apply H8 in He. lia.
Qed.

Lemma run_newlines_ext : forall b a, exists ext,
  st_newlines (run (a ++ b)) = st_newlines (run a) ++ ext /\ forall x, In x ext -> blen a < x.
Proof.
  induction b as [|c b IH] using rev_ind; intro a.
  - exists []. rewrite !app_nil_r. split; [reflexivity|contradiction].
  - rewrite app_assoc, run_snoc. destruct (IH a) as [ext [H1 H2]].
    destruct (run_facts (a ++ b)) as [Ho _]. unfold li_step.
    destruct (c =? LF)%N; cbn [st_newlines].
    + exists (ext ++ [st_offset (run (a ++ b)) + utf8_len c]). rewrite H1, app_assoc. split; [reflexivity|].
      intros x Hx. apply in_app_or in Hx. destruct Hx as [Hx|[<-|[]]]; [auto|].
      rewrite Ho, blen_app. pose proof (utf8_len_pos c). lia.
    + exists ext. auto.
Qed.

Lemma nth_newlines : forall pre suf,
  nth_error (newlines (line_index_new (pre ++ suf))) (count_lf pre) = Some (blen pre - blen (after_last_lf pre)).
Proof.
  intros pre suf. change (newlines (line_index_new (pre ++ suf))) with (st_newlines (run (pre ++ suf))).
  destruct (run_newlines_ext suf pre) as [ext [-> _]].
  destruct (run_facts pre) as [_ [_ [_ [_ [H5 [H6 _]]]]]]. rewrite nth_error_app1 by lia. exact H6.
Qed.

Lemma partition_split : forall pred a b,
  (forall x, In x a -> pred x = true) -> (forall x, In x b -> pred x = false) ->
  partition_point pred (a ++ b) = length a.
Proof.
  intros pred a b Ha Hb. unfold partition_point.
  assert (forall i x, nth_error (a ++ b) i = Some x -> (i < length a /\ pred x = true) \/ (length a <= i /\ pred x = false)) as Hn.
  { intros i x Hx. destruct (Nat.lt_ge_cases i (length a)).
    - left. split; [assumption|]. rewrite nth_error_app1 in Hx by assumption. apply Ha. eapply nth_error_In; eauto.
    - right. split; [assumption|]. rewrite nth_error_app2 in Hx by assumption. apply Hb. eapply nth_error_In; eauto. }
  assert (monotone (fun x => if pred x then Lt else Gt) (a ++ b)) as Hm.
  { intros i j x y Hij Hx Hy. destruct (Hn _ _ Hx) as [[? ->]|[? ->]], (Hn _ _ Hy) as [[? ->]|[? ->]]; cbn; lia. }
  pose proof (binary_search_spec _ _ _ Hm) as H.
  destruct (binary_search_by (fun x => if pred x then Lt else Gt) (a ++ b)) as [i|i].
  - destruct H as [x [_ H]]. destruct (pred x); discriminate.
  - destruct H as [H1 [H2 H3]]. rewrite app_length in H1.
    assert (~ i < length a) as Hi1.
    { intro Hi. destruct (nth_error (a ++ b) i) as [x|] eqn:Ex.
      - destruct (Hn _ _ Ex) as [[? Hp]|[? ?]]; [|lia].
        specialize (H3 i x (le_n _) Ex). rewrite Hp in H3. discriminate.
      - apply nth_error_None in Ex. rewrite app_length in Ex. lia. }
    assert (~ length a < i) as Hi2.
    { intro Hi. destruct (nth_error (a ++ b) (length a)) as [x|] eqn:Ex.
      - destruct (Hn _ _ Ex) as [[? ?]|[? Hp]]; [lia|].
        specialize (H2 _ x Hi Ex). rewrite Hp in H2. discriminate.
      - apply nth_error_None in Ex. rewrite app_length in Ex. lia. }
    lia.
Qed.

Lemma blen_after_le : forall t, blen (after_last_lf t) <= blen t.
Proof. intro t. destruct (after_last_lf_suffix t) as [p [Hp _]]. rewrite Hp at 2. rewrite blen_app. lia. Qed.

Lemma line_col_at : forall pre suf,
  li_line_col (line_index_new (pre ++ suf)) (blen pre)
  = Some {| lc_line := count_lf pre; lc_col := blen (after_last_lf pre) |}.
Proof.
  intros pre suf. unfold li_line_col.
  assert (partition_point (fun it => it <=? blen pre) (newlines (line_index_new (pre ++ suf))) = S (count_lf pre)) as ->.
  { change (newlines (line_index_new (pre ++ suf))) with (st_newlines (run (pre ++ suf))).
    destruct (run_newlines_ext suf pre) as [ext [-> Hext]].
    destruct (run_facts pre) as [_ [_ [_ [_ [H5 [_ [H7 _]]]]]]]. rewrite <- H5.
    apply partition_split.
    - intros x Hx. apply Nat.leb_le. auto.
    - intros x Hx. apply Nat.leb_gt. auto. }
  replace (S (count_lf pre) - 1) with (count_lf pre) by lia.
  rewrite nth_newlines. pose proof (blen_after_le pre). f_equal. f_equal. lia.
Qed.

(* wide characters *)
Definition wget (m : list (nat * list wide_char)) (k : nat) : list wide_char :=
  match find (fun e => Nat.eqb (fst e) k) m with None => [] | Some e => snd e end.

Lemma wget_app_not : forall m k m', (forall e, In e m' -> fst e <> k) -> wget (m ++ m') k = wget m k.
Proof.
  unfold wget. induction m as [|e m IH]; intros k m' H; cbn.
  - induction m' as [|e m' IH']; cbn; [reflexivity|].
    destruct (Nat.eqb_spec (fst e) k) as [E|E]; [exfalso; apply (H e (or_introl eq_refl) E)|].
    apply IH'. intros. apply H. right. assumption.
  - destruct (Nat.eqb (fst e) k); [reflexivity|]. apply IH. exact H.
Qed.

Lemma wget_none : forall m k, (forall e, In e m -> fst e < k) -> wget m k = [].
Proof.
  unfold wget. induction m as [|e m IH]; intros k H; cbn; [reflexivity|].
  destruct (Nat.eqb_spec (fst e) k) as [E|E]; [specialize (H e (or_introl eq_refl)); lia|].
  apply IH. intros. apply H. right. assumption.
Qed.

Lemma save_get : forall st, (forall e, In e (st_map st) -> fst e < st_line st) ->
  wget (save_wide st) (st_line st) = st_wide st.
Proof.
  intros st H. unfold save_wide. destruct (st_wide st) as [|w ws] eqn:E; [apply wget_none; exact H|].
  unfold wget. rewrite <- E. clear E. induction (st_map st) as [|e m IH]; cbn.
  - rewrite Nat.eqb_refl. reflexivity.
  - destruct (Nat.eqb_spec (fst e) (st_line st)) as [Q|Q]; [specialize (H e (or_introl eq_refl)); lia|].
    apply IH. intros. apply H. right. assumption.
Qed.

Lemma save_old : forall st k, k < st_line st -> wget (save_wide st) k = wget (st_map st) k.
Proof.
  intros st k H. unfold save_wide. destruct (st_wide st); [reflexivity|].
  apply wget_app_not. intros e [<-|[]]. cbn. lia.
Qed.

Lemma fold_old : forall s st k, k < st_line st ->
  wget (save_wide (fold_left li_step s st)) k = wget (st_map st) k.
Proof.
  induction s as [|c s IH]; intros st k H; cbn [fold_left].
  - apply save_old. exact H.
  - unfold li_step at 2. destruct (c =? LF)%N; rewrite IH; cbn [st_line st_map]; try lia; [|reflexivity].
    apply save_old. exact H.
Qed.

Lemma save_keys : forall st e, (forall e, In e (st_map st) -> fst e < st_line st) ->
  In e (save_wide st) -> fst e < st_line st + 1.
Proof.
  intros st e H He. unfold save_wide in He. destruct (st_wide st).
  - apply H in He. lia.
  - apply in_app_or in He. destruct He as [He|[<-|[]]]; [apply H in He; lia|]. cbn. lia.
Qed.

Lemma fold_current : forall s st, (forall e, In e (st_map st) -> fst e < st_line st) ->
  wget (save_wide (fold_left li_step s st)) (st_line st) = st_wide st ++ wides (st_col st) (head_line s).
Proof.
  induction s as [|c s IH]; intros st H; cbn [fold_left].
  - cbn. rewrite app_nil_r. apply save_get. exact H.
  - cbn [head_line]. unfold li_step at 2. destruct (c =? LF)%N eqn:E.
    + rewrite fold_old by (cbn; lia). cbn [st_map wides]. rewrite app_nil_r. apply save_get. exact H.
    + match goal with |- wget (save_wide (fold_left li_step s ?st')) _ = _ =>
        etransitivity; [exact (IH st' H)|] end.
      cbn [st_wide st_col wides]. destruct (is_ascii c); [reflexivity|]. rewrite <- app_assoc. reflexivity.
Qed.

Lemma wide_get_at : forall pre suf,
  wide_get (line_index_new (pre ++ suf)) (count_lf pre) = wides 0 (after_last_lf pre ++ head_line suf).
Proof.
  intros pre suf. unfold wide_get, line_index_new. cbn [line_wide_chars].
  rewrite fold_left_app. change (fold_left li_step pre li_init) with (run pre).
  destruct (run_facts pre) as [_ [H2 [H3 [H4 [_ [_ [_ H8]]]]]]].
  change (wget (save_wide (fold_left li_step suf (run pre))) (count_lf pre) = wides 0 (after_last_lf pre ++ head_line suf)).
  rewrite wides_app, <- H2. cbn [Nat.add].
  rewrite fold_current by (rewrite H2; exact H8). rewrite H3, H4. reflexivity.
Qed.

(* encodings *)
Definition wl (enc : encoding) (n : nat) : nat := match enc with EUtf16 => if Nat.eqb n 4 then 2 else 1 | _ => 1 end.

Lemma utf8_ascii : forall c, is_ascii c = true -> utf8_len c = 1.
Proof. intros c H. unfold utf8_len. unfold is_ascii in H. rewrite H. reflexivity. Qed.

Lemma units1_wide : forall enc c, enc <> EUtf8 ->
  units1 enc c = if is_ascii c then 1 else wl enc (utf8_len c).
Proof.
  intros enc c H. unfold units1, wl, is_ascii, utf8_len, utf16_len.
  destruct enc; [contradiction| |].
  - destruct (c <? 128)%N eqn:E1.
    + apply N.ltb_lt in E1. destruct (c <? 65536)%N eqn:E2; [reflexivity|]. apply N.ltb_ge in E2. lia.
    + destruct (c <? 2048)%N eqn:E2.
      * apply N.ltb_lt in E2. destruct (c <? 65536)%N eqn:E3; [reflexivity|]. apply N.ltb_ge in E3. lia.
      * destruct (c <? 65536)%N; reflexivity.
  - destruct (c <? 128)%N; reflexivity.
Qed.

Lemma units1_pos : forall enc c, 1 <= units1 enc c.
Proof.
  intros enc c. destruct enc; cbn; [apply utf8_len_pos| |lia]. unfold utf16_len. destruct (c <? 65536)%N; lia.
Qed.

Lemma units_pos : forall enc t, t <> [] -> 1 <= units enc t.
Proof. intros enc [|c t] H; [contradiction|]. cbn. pose proof (units1_pos enc c). lia. Qed.

Lemma wl_le : forall enc c, wl enc (utf8_len c) <= utf8_len c.
Proof.
  intros enc c. pose proof (utf8_len_pos c). unfold wl. destruct enc; try lia.
  destruct (Nat.eqb_spec (utf8_len c) 4); lia.
Qed.

Lemma wide_len_at : forall enc col n, wide_len enc {| wc_start := col; wc_end := col + n |} = wl enc n.
Proof. intros. unfold wide_len, wl. cbn. replace (col + n - col) with n by lia. reflexivity. Qed.

Lemma to_wide_stop : forall enc b col0 col res, col <= col0 ->
  to_wide_loop enc (wides col0 b) col res = res.
Proof.
  intros enc b. induction b as [|c b IH]; intros col0 col res H; cbn; [reflexivity|].
  pose proof (utf8_len_pos c).
  destruct (is_ascii c); cbn [app]; [apply IH; lia|]. cbn [to_wide_loop wc_end].
  destruct (Nat.leb_spec (col0 + utf8_len c) col); [lia|reflexivity].
Qed.

Lemma to_wide_correct : forall enc, enc <> EUtf8 -> forall a b col0 d,
  to_wide_loop enc (wides col0 (a ++ b)) (col0 + blen a) (d + blen a) = d + units enc a.
Proof.
  intros enc He. induction a as [|c a IH]; intros b col0 d; cbn [app blen units].
  - apply to_wide_stop. lia.
  - cbn [wides]. rewrite (units1_wide _ _ He). destruct (is_ascii c) eqn:E; cbn [app].
    + rewrite (utf8_ascii _ E). replace (col0 + (1 + blen a)) with (col0 + 1 + blen a) by lia.
      replace (d + (1 + blen a)) with (d + 1 + blen a) by lia. rewrite IH. lia.
    + cbn [to_wide_loop wc_end wc_start].
      destruct (Nat.leb_spec (col0 + utf8_len c) (col0 + (utf8_len c + blen a))); [|lia].
      rewrite wide_len_at. pose proof (wl_le enc c).
      replace (col0 + (utf8_len c + blen a)) with (col0 + utf8_len c + blen a) by lia.
      replace (d + (utf8_len c + blen a) - (col0 + utf8_len c - col0 - wl enc (utf8_len c)))
        with (d + wl enc (utf8_len c) + blen a) by lia.
      rewrite IH. lia.
Qed.

Lemma to_utf8_stop : forall enc b col0 col, col <= col0 -> to_utf8_loop enc (wides col0 b) col = col.
Proof.
  intros enc b. induction b as [|c b IH]; intros col0 col H; cbn; [reflexivity|].
  destruct (is_ascii c); cbn [app]; [apply IH; lia|]. cbn [to_utf8_loop wc_start].
  destruct (Nat.ltb_spec col0 col); [lia|reflexivity].
Qed.

Lemma to_utf8_correct : forall enc, enc <> EUtf8 -> forall a b col0,
  to_utf8_loop enc (wides col0 (a ++ b)) (col0 + units enc a) = col0 + blen a.
Proof.
  intros enc He. induction a as [|c a IH]; intros b col0; cbn [app blen units].
  - apply to_utf8_stop. lia.
  - cbn [wides]. rewrite (units1_wide _ _ He). destruct (is_ascii c) eqn:E; cbn [app].
    + rewrite (utf8_ascii _ E). replace (col0 + (1 + units enc a)) with (col0 + 1 + units enc a) by lia.
      rewrite IH. lia.
    + pose proof (units1_pos enc c) as Hp. rewrite (units1_wide _ _ He), E in Hp.
      cbn [to_utf8_loop wc_start wc_end].
      destruct (Nat.ltb_spec col0 (col0 + (wl enc (utf8_len c) + units enc a))); [|lia].
      rewrite wide_len_at. pose proof (wl_le enc c).
      replace (col0 + (wl enc (utf8_len c) + units enc a) + (col0 + utf8_len c - col0 - wl enc (utf8_len c)))
        with (col0 + utf8_len c + units enc a) by lia.
      rewrite IH. lia.
Qed.

Lemma position_from_offset_spec : forall enc pre suf,
  position_from_offset enc (line_index_new (pre ++ suf)) (blen pre) = Some (position_after enc pre).
Proof.
  intros enc pre suf. unfold position_from_offset. rewrite line_col_at. unfold position_from_line_col, position_after.
  destruct enc; cbn [lc_line lc_col].
  - rewrite units_utf8. reflexivity.
  - rewrite wide_get_at. f_equal. f_equal.
    exact (to_wide_correct EUtf16 ltac:(discriminate) (after_last_lf pre) (head_line suf) 0 0).
  - rewrite wide_get_at. f_equal. f_equal.
    exact (to_wide_correct EUtf32 ltac:(discriminate) (after_last_lf pre) (head_line suf) 0 0).
Qed.

Lemma line_col_from_position_spec : forall enc pre suf,
  line_col_from_position enc (line_index_new (pre ++ suf)) (position_after enc pre)
  = {| lc_line := count_lf pre; lc_col := blen (after_last_lf pre) |}.
Proof.
  intros enc pre suf. unfold line_col_from_position, position_after.
  destruct enc; cbn [pos_line pos_char].
  - rewrite units_utf8. reflexivity.
  - rewrite wide_get_at. f_equal.
    exact (to_utf8_correct EUtf16 ltac:(discriminate) (after_last_lf pre) (head_line suf) 0).
  - rewrite wide_get_at. f_equal.
    exact (to_utf8_correct EUtf32 ltac:(discriminate) (after_last_lf pre) (head_line suf) 0).
Qed.

Lemma offset_from_position_spec : forall enc pre suf,
  offset_from_position enc (line_index_new (pre ++ suf)) (position_after enc pre) = Some (blen pre).
Proof.
  intros enc pre suf. unfold offset_from_position. rewrite line_col_from_position_spec.
  unfold li_offset. cbn [lc_line lc_col]. rewrite nth_newlines. pose proof (blen_after_le pre). f_equal. lia.
Qed.

Lemma position_round_trip : forall enc t offset a b,
  split_at offset t = Some (a, b) ->
  position_from_offset enc (line_index_new t) offset = Some (position_after enc a) /\
  offset_from_position enc (line_index_new t) (position_after enc a) = Some offset.
Proof.
  intros enc t offset a b H. apply split_at_sound in H. destruct H as [-> <-].
  split; [apply position_from_offset_spec|apply offset_from_position_spec].
Qed.

Lemma position_after_mono : forall enc pre mid, mid <> [] -> pos_lt (position_after enc pre) (position_after enc (pre ++ mid)).
Proof.
  intros enc pre mid H. unfold pos_lt, position_after. cbn [pos_line pos_char]. rewrite count_lf_app.
  destruct (Nat.eq_dec (count_lf mid) 0) as [E|E]; [|left; lia].
  right. split; [lia|]. rewrite after_last_lf_app0 by exact E. rewrite units_app.
  pose proof (units_pos enc mid H). lia.
Qed.

Lemma position_monotone : forall enc t o1 o2 p1 p2 a1 b1 a2 b2,
  split_at o1 t = Some (a1, b1) -> split_at o2 t = Some (a2, b2) ->
  position_from_offset enc (line_index_new t) o1 = Some p1 ->
  position_from_offset enc (line_index_new t) o2 = Some p2 ->
  (o1 < o2 <-> pos_lt p1 p2).
Proof.
  intros enc t o1 o2 p1 p2 a1 b1 a2 b2 H1 H2 P1 P2.
  destruct (position_round_trip enc _ _ _ _ H1) as [Q1 _]. destruct (position_round_trip enc _ _ _ _ H2) as [Q2 _].
  rewrite Q1 in P1. injection P1 as <-. rewrite Q2 in P2. injection P2 as <-.
  apply split_at_sound in H1. apply split_at_sound in H2. destruct H1 as [E1 L1], H2 as [E2 L2].
  assert (forall a b c d : text, a ++ b = c ++ d -> blen a < blen c -> pos_lt (position_after enc a) (position_after enc c)) as Hlt.
  { intros a b c d E L. destruct (app_split_blen _ _ _ _ E) as [m [-> _]]; [lia|].
    apply position_after_mono. intros ->. rewrite app_nil_r in L. lia. }
  split.
  - intro L. eapply Hlt; [rewrite <- E1; exact E2|lia].
  - intro L. destruct (Nat.lt_trichotomy o1 o2) as [|[E|G]]; [assumption| |].
    + exfalso. subst o2. assert (a1 = a2) as <-.
      { destruct (app_eq_blen a1 b1 a2 b2); [congruence|lia|assumption]. }
      unfold pos_lt in L. lia.
    + exfalso. assert (pos_lt (position_after enc a2) (position_after enc a1)) as L2'.
      { eapply Hlt; [rewrite <- E1; symmetry; exact E2|lia]. }
      unfold pos_lt in *. lia.
Qed.

Lemma range_never_inverts : forall enc t s e a1 b1 a2 b2,
  split_at s t = Some (a1, b1) -> split_at e t = Some (a2, b2) -> s <= e ->
  exists r, range_to_proto enc (line_index_new t) s e = Some r /\
    text_range enc (line_index_new t) r = Val (s, e) /\
    (r_start r = r_end r <-> s = e).
Proof.
  intros enc t s e a1 b1 a2 b2 H1 H2 L.
  destruct (position_round_trip enc _ _ _ _ H1) as [P1 O1]. destruct (position_round_trip enc _ _ _ _ H2) as [P2 O2].
  unfold range_to_proto. rewrite P1, P2. eexists. split; [reflexivity|]. unfold text_range. cbn [r_start r_end].
  rewrite O1, O2. destruct (Nat.leb_spec s e); [|lia]. split; [reflexivity|].
  split; [|intros ->; congruence]. intro E. rewrite E, O2 in O1. congruence.
Qed.
