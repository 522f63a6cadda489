(** * PropDisk: C35 (write_to_file and from_file, errors and crashes). *)
From Verif Require Import Disk PropRound Roundtrip AgreeTop PropLoad.
From Coq Require Import Lia List.
Import ListNotations.
From Coq Require String.
Import String.StringSyntax.
Open Scope N_scope.

(** ** UTF-8 *)
Ltac cases := repeat match goal with
  | |- context [?a <? ?b] => destruct (N.ltb_spec a b)
  | |- context [?a <=? ?b] => destruct (N.leb_spec a b)
  end.
Section Utf8.
Ltac Zify.zify_post_hook ::= Z.to_euclidean_division_equations.
Lemma cont_mod n : cont (128 + n mod 64) = true.
Proof. unfold cont. destruct (N.leb_spec 128 (128 + n mod 64)), (N.ltb_spec (128 + n mod 64) 192); auto; lia. Qed.
Lemma decode_char c r : scalar c -> decode (utf8_char c ++ r) = consc c (decode r).
Proof.
  intros S. unfold scalar in S. unfold utf8_char.
  destruct (N.ltb_spec c 128) as [H|H]; [|destruct (N.ltb_spec c 2048) as [H'|H']; [|destruct (N.ltb_spec c 65536) as [H2|H2]]]; cbn [app decode].
  - destruct (N.ltb_spec c 128); [reflexivity|lia].
  - rewrite cont_mod. cbn [negb].
    destruct (N.ltb_spec (192 + c / 64) 128); [lia|]. destruct (N.ltb_spec (192 + c / 64) 194); [lia|].
    destruct (N.ltb_spec (192 + c / 64) 224); [|lia]. f_equal. lia.
  - rewrite !cont_mod. cbn [negb].
    destruct (N.ltb_spec (224 + c / 4096) 128); [lia|]. destruct (N.ltb_spec (224 + c / 4096) 194); [lia|].
    destruct (N.ltb_spec (224 + c / 4096) 224); [lia|]. destruct (N.ltb_spec (224 + c / 4096) 240); [|lia].
    replace ((224 + c / 4096 - 224) * 4096 + (128 + c / 64 mod 64 - 128) * 64 + (128 + c mod 64 - 128)) with c.
    2:{ assert (E1 : c / 64 / 64 = c / 4096) by (rewrite N.div_div by lia; reflexivity).
        pose proof (N.div_mod c 64). pose proof (N.div_mod (c / 64) 64). rewrite E1 in *. lia. }
    destruct (N.ltb_spec c 2048); [lia|]. destruct (N.leb_spec 55296 c), (N.ltb_spec c 57344); try lia; reflexivity.
  - rewrite !cont_mod. cbn [negb].
    destruct (N.ltb_spec (240 + c / 262144) 128); [lia|]. destruct (N.ltb_spec (240 + c / 262144) 194); [lia|].
    destruct (N.ltb_spec (240 + c / 262144) 224); [lia|]. destruct (N.ltb_spec (240 + c / 262144) 240); [lia|].
    replace ((240 + c / 262144 - 240) * 262144 + (128 + c / 4096 mod 64 - 128) * 4096 + (128 + c / 64 mod 64 - 128) * 64 + (128 + c mod 64 - 128)) with c.
    2:{ assert (E1 : c / 64 / 64 = c / 4096) by (rewrite N.div_div by lia; reflexivity).
        assert (E2 : c / 4096 / 64 = c / 262144) by (rewrite N.div_div by lia; reflexivity).
        pose proof (N.div_mod c 64). pose proof (N.div_mod (c / 64) 64). pose proof (N.div_mod (c / 4096) 64). rewrite E1, E2 in *. lia. }
    destruct (N.ltb_spec c 65536); [lia|]. destruct (N.leb_spec 1114112 c); [lia|]. destruct (N.leb_spec 245 (240 + c / 262144)); [lia|]. reflexivity.
Qed.
Lemma cons_inj (a b : byte) l m : a :: l = b :: m -> a = b /\ l = m.
Proof. intros E; inversion E; auto. Qed.
Ltac inj E := repeat (apply cons_inj in E; let X := fresh "X" in destruct E as [X E]); subst.
(** A character cut in the middle is not valid. *)
Lemma decode_cut c bs cs : scalar c -> utf8_char c = bs ++ cs -> bs <> [] -> cs <> [] -> decode bs = None.
Proof.
  intros S E B C. unfold utf8_char in E.
  assert (K : forall x, cont x = true -> negb (cont x) = false) by (intros x ->; reflexivity).
  destruct (N.ltb_spec c 128) as [H|H]; [|destruct (N.ltb_spec c 2048) as [H'|H']; [|destruct (N.ltb_spec c 65536) as [H2|H2]]].
  - destruct bs as [|b [|]]; [contradiction| |discriminate]. destruct cs; [contradiction|discriminate].
  - destruct bs as [|b0 [|b1 [|]]]; [contradiction| | |discriminate]; cbn [app] in E; inj E; try (exfalso; apply C; reflexivity).
    cbn [decode]. destruct (N.ltb_spec (192 + c / 64) 128); [lia|]. destruct (N.ltb_spec (192 + c / 64) 194); reflexivity.
  - destruct bs as [|b0 [|b1 [|b2 [|]]]]; [contradiction| | | |discriminate]; cbn [app] in E; inj E; try (exfalso; apply C; reflexivity);
      cbn [decode]; destruct (N.ltb_spec (224 + c / 4096) 128); try lia; destruct (N.ltb_spec (224 + c / 4096) 194); try reflexivity.
    rewrite cont_mod. cbn [negb]. destruct (N.ltb_spec (224 + c / 4096) 224); [lia|reflexivity].
  - unfold scalar in S.
    destruct bs as [|b0 [|b1 [|b2 [|b3 [|]]]]]; [contradiction| | | | |discriminate]; cbn [app] in E; inj E; try (exfalso; apply C; reflexivity);
      cbn [decode]; destruct (N.ltb_spec (240 + c / 262144) 128); try lia; destruct (N.ltb_spec (240 + c / 262144) 194); try reflexivity.
    + rewrite cont_mod. cbn [negb]. destruct (N.ltb_spec (240 + c / 262144) 224); [lia|reflexivity].
    + rewrite !cont_mod. cbn [negb]. destruct (N.ltb_spec (240 + c / 262144) 224); [lia|].
      destruct (N.ltb_spec (240 + c / 262144) 240); [lia|reflexivity].
Qed.
End Utf8.
Lemma decode_utf8 t : rust_string t -> decode (utf8 t) = Some t.
Proof.
  induction 1 as [|c t S F IH]; [reflexivity|]. unfold utf8 in *. cbn [flat_map]. rewrite decode_char by exact S. rewrite IH. reflexivity.
Qed.
(** What one reads from a cut file is a prefix of the text. *)
Lemma decode_prefix t : rust_string t -> forall bs cs u, utf8 t = bs ++ cs -> decode bs = Some u -> exists v, t = u ++ v.
Proof.
  induction 1 as [|c t S F IH]; intros bs cs u E D.
  - destruct bs; [|discriminate]. inversion D; subst. exists []. reflexivity.
  - unfold utf8 in E. cbn [flat_map] in E. change (flat_map utf8_char t) with (utf8 t) in E.
    destruct (Nat.le_gt_cases (length (utf8_char c)) (length bs)) as [L|L].
    + assert (X : exists bs', bs = utf8_char c ++ bs' /\ utf8 t = bs' ++ cs).
      { exists (skipn (length (utf8_char c)) bs). split.
        - rewrite <- (firstn_skipn (length (utf8_char c)) bs) at 1. f_equal.
          rewrite <- (app_nil_r (firstn _ bs)). apply (f_equal (firstn (length (utf8_char c)))) in E.
          rewrite !firstn_app, firstn_all in E. replace (length (utf8_char c) - length bs)%nat with 0%nat in E by lia.
          rewrite Nat.sub_diag in E. cbn [firstn] in E. rewrite !app_nil_r in *. congruence.
        - apply (f_equal (skipn (length (utf8_char c)))) in E. rewrite !skipn_app, skipn_all in E.
          replace (length (utf8_char c) - length bs)%nat with 0%nat in E by lia. rewrite Nat.sub_diag in E. exact E. }
      destruct X as (bs' & -> & E'). rewrite decode_char in D by exact S.
      destruct (decode bs') as [u'|] eqn:D'; [|discriminate]. inversion D; subst.
      destruct (IH _ _ _ E' D') as (v & ->). exists v. reflexivity.
    + assert (X : exists cs', utf8_char c = bs ++ cs').
      { exists (skipn (length bs) (utf8_char c)). rewrite <- (firstn_skipn (length bs) (utf8_char c)) at 1. f_equal.
        apply (f_equal (firstn (length bs))) in E. rewrite !firstn_app, firstn_all in E.
        replace (length bs - length (utf8_char c))%nat with 0%nat in E by lia. rewrite Nat.sub_diag in E.
        cbn [firstn] in E. rewrite !app_nil_r in E. exact E. }
      destruct X as (cs' & E'). destruct bs as [|b bs]; [inversion D; subst; exists (c :: t); reflexivity|].
      exfalso. rewrite (decode_cut c (b :: bs) cs' S E') in D; [discriminate|discriminate|].
      intros ->. rewrite app_nil_r in E'. rewrite E' in L. lia.
Qed.

(** ** The file system during a write *)
Lemma set_nth_same {A} (l : list A) i x : (i < length l)%nat -> nth_error (set_nth l i x) i = Some x.
Proof. revert i. induction l as [|y l IH]; intros [|i] H; cbn in *; try lia; auto. apply IH. lia. Qed.
Lemma set_nth_other {A} (l : list A) i j x : i <> j -> nth_error (set_nth l i x) j = nth_error l j.
Proof. revert i j. induction l as [|y l IH]; intros [|i] [|j] H; cbn; auto; try congruence. Qed.
Lemma set_nth_twice {A} (l : list A) i x y : set_nth (set_nth l i x) i y = set_nth l i y.
Proof. revert i. induction l as [|z l IH]; intros [|i]; cbn; auto. f_equal. apply IH. Qed.
Lemma set_nth_length {A} (l : list A) i x : length (set_nth l i x) = length l.
Proof. revert i. induction l as [|z l IH]; intros [|i]; cbn; auto. Qed.

Lemma entry_put fs p i e bs : fs_entry fs p = Some (i, e) ->
  fs_entry (put_bytes fs i bs) p = Some (i, mkfe (fe_canon e) (read_bytes bs)).
Proof.
  unfold fs_entry, put_bytes. destruct (path_parent p) eqn:Pp; [|discriminate]. destruct (fs_resolve fs p) as [j|] eqn:R; [|discriminate].
  destruct (nth_error (fs_files fs) j) as [e'|] eqn:E; [|discriminate]. intros X; inversion X; subst.
  rewrite E. cbn [fs_resolve fs_files]. rewrite R, set_nth_same; [reflexivity|]. apply nth_error_Some. congruence.
Qed.
Lemma entry_put_other fs p i j e bs : fs_entry fs p = Some (j, e) -> i <> j ->
  fs_entry (put_bytes fs i bs) p = Some (j, e).
Proof.
  unfold fs_entry, put_bytes. destruct (path_parent p) eqn:Pp; [|discriminate]. destruct (fs_resolve fs p) as [k|] eqn:R; [|discriminate].
  destruct (nth_error (fs_files fs) k) as [e'|] eqn:E; [|discriminate]. intros X D; inversion X; subst.
  destruct (nth_error (fs_files fs) i) eqn:Ei; cbn [fs_resolve fs_files]; rewrite R; [rewrite set_nth_other by auto|]; rewrite E; reflexivity.
Qed.
Lemma put_put fs i bs cs : put_bytes (put_bytes fs i bs) i cs = put_bytes fs i cs.
Proof.
  unfold put_bytes. destruct (nth_error (fs_files fs) i) as [e|] eqn:E; [|rewrite E; reflexivity].
  cbn [fs_files fs_resolve fs_open_err]. rewrite set_nth_same by (apply nth_error_Some; congruence).
  cbn [fe_canon]. rewrite set_nth_twice. reflexivity.
Qed.

(** The written file holds exactly the bytes [bs], and no other file has changed. *)
Definition holds (fs0 : fsys) (path : str) (bs : list byte) (fs : fsys) : Prop :=
  exists i e, fs_entry fs path = Some (i, e) /\ fe_read e = read_bytes bs /\
    (forall e0, fs_entry fs0 path = Some (i, e0) -> fe_canon e = fe_canon e0) /\
    (forall q j e', fs_entry fs0 q = Some (j, e') -> j <> i -> fs_entry fs q = Some (j, e')).

Section W.
Variables (path text : str) (fs0 : fsys).
Lemma wreach_inv w fs : wreach path text fs0 w fs ->
  match w with
  | WStart => fs = fs0
  | WOpen i done todo => done ++ todo = utf8 text /\
      exists e, fs_entry fs path = Some (i, e) /\ fe_read e = read_bytes done /\
        (forall e0, fs_entry fs0 path = Some (i, e0) -> fe_canon e = fe_canon e0) /\
        (forall q j e', fs_entry fs0 q = Some (j, e') -> j <> i -> fs_entry fs q = Some (j, e'))
  | WEnd (OOk _) => holds fs0 path (utf8 text) fs
  | WEnd (OErr _) => fs = fs0 \/ exists done todo, done ++ todo = utf8 text /\ todo <> [] /\ holds fs0 path done fs
  end.
Proof.
  induction 1 as [|w fs w' fs' R IH St]; [reflexivity|].
  inversion St as [? msg|? i e Fe|? resolve canon Fe Pp Rp Ro|? i done some todo Ns|? i done todo msg Nt|? i done]; subst; clear St.
  - left. exact IH.
  - subst fs. split; [reflexivity|]. eexists. split; [apply entry_put; eassumption|]. split; [reflexivity|].
    split; [intros e0 E0; cbn; congruence|]. intros q j e' Eq D. apply entry_put_other; auto.
  - subst fs. split; [reflexivity|]. 
    assert (EN : fs_entry {| fs_resolve := resolve; fs_files := fs_files fs0 ++ [{| fe_canon := canon; fe_read := inl [] |}]; fs_open_err := fs_open_err fs0 |} path
      = Some (length (fs_files fs0), {| fe_canon := canon; fe_read := inl [] |})).
    { unfold fs_entry. cbn [fs_resolve fs_files]. destruct (path_parent path); [|contradiction]. rewrite Rp. rewrite nth_error_app2 by lia. rewrite Nat.sub_diag. reflexivity. }
    eexists. split; [exact EN|]. split; [reflexivity|]. split; [intros e0 E0; congruence|].
    intros q j e' Eq D. unfold fs_entry in *. cbn [fs_resolve fs_files].
    destruct (path_parent q) as [dq|] eqn:Pq; [|discriminate].
    destruct (fs_resolve fs0 q) as [k|] eqn:Rq; [|discriminate].
    destruct (nth_error (fs_files fs0) k) as [e1|] eqn:E1; [|discriminate]. inversion Eq; subst.
    assert (Dq : q <> path). { intros ->. unfold fs_entry in Fe; rewrite Pq, Rq, E1 in Fe. discriminate. }
    rewrite (Ro _ _ Rq Dq). rewrite nth_error_app1 by (apply nth_error_Some; congruence). rewrite E1. reflexivity.
  - destruct IH as (E & e & F1 & F2 & F3 & F4). split; [rewrite <- app_assoc; exact E|].
    eexists. split; [apply entry_put; exact F1|]. split; [reflexivity|]. split; [intros e0 E0; cbn; auto|].
    intros q j e' Eq D. apply entry_put_other; eauto.
  - right. destruct IH as (E & e & F1 & F2 & F3 & F4). exists done, todo. split; [exact E|]. split; [assumption|].
    exists i, e. auto.
  - destruct IH as (E & e & F1 & F2 & F3 & F4). rewrite app_nil_r in E. subst. exists i, e. auto.
Qed.
End W.

Section P.
Context `{U : Unicode}.

(** write_to_file that succeeds, then from_file: an Obj == the original. *)
Theorem C35_write_then_load fs0 fs g o path text : wf_obj good_names o -> depth_obj o <= 64 ->
  write_to_string o = Some text -> rust_string text ->
  write_to_file fs0 o path (OOk tt) fs -> canon fs path <> None ->
  exists o', from_file fs g path = Some (OOk o') /\ obj_eqb o' o = true.
Proof.
  intros W D T S (text' & T' & R) C. assert (text' = text) by congruence. subst text'.
  rewrite write_to_string_fmt in T. injection T as <-.
  apply wreach_inv in R as (i & e & F1 & F2 & _).
  pose proof (write_doc o (legal_good _ W)) as Rd.
  destruct (doc_round (include_meaning fs (Some path)) limit64 o ([], file_sh fs g path) W (room64 _ D)) as (o' & y & E & V).
  exists o'. split; [|apply erase_eqb; auto using any_good].
  apply (file_ok fs g path (quote_items o) (fmt_body 0 o)); auto.
  - exists i, e. split; [exact F1|]. split; [|unfold canon in C; rewrite F1 in C; exact C].
    rewrite F2. unfold read_bytes. rewrite decode_utf8 by exact S. reflexivity.
  - exists y. exact E.
Qed.

(** What a crash can leave: either nothing has happened, or the file holds a prefix of the new bytes
    (so the old contents are gone); other files are not touched. *)
Theorem C35_crash fs0 o path text fs : write_to_string o = Some text -> crash_in_write fs0 o path fs ->
  fs = fs0 \/ exists bs rest, utf8 text = bs ++ rest /\ holds fs0 path bs fs.
Proof.
  intros T (text' & w & T' & R). assert (text' = text) by congruence. subst text'.
  apply wreach_inv in R. destruct w as [|i done todo|[u|er]].
  - auto.
  - right. destruct R as (E & e & F). exists done, todo. split; [auto|]. exists i, e. exact F.
  - right. exists (utf8 text), []. rewrite app_nil_r. split; auto.
  - destruct R as [R|(done & todo & E & _ & H)]; [auto|]. right. exists done, todo. auto.
Qed.
(** Reading it gives a prefix of the text, or the error for invalid UTF-8. *)
Theorem C35_crash_contents fs0 o path text fs i e : write_to_string o = Some text -> rust_string text ->
  crash_in_write fs0 o path fs -> fs <> fs0 -> fs_entry fs path = Some (i, e) ->
  (exists t t', text = t ++ t' /\ fe_read e = inl t) \/ fe_read e = inr invalid_utf8.
Proof.
  intros T S C N F. destruct (C35_crash _ _ _ _ _ T C) as [|(bs & rest & E & i' & e' & F' & Rd & _)]; [contradiction|].
  assert (e' = e) by congruence. subst e'. rewrite Rd. unfold read_bytes. destruct (decode bs) as [t|] eqn:D; [left|auto].
  destruct (decode_prefix text S bs rest t E D) as (v & Ev). eauto.
Qed.
(** Every prefix can be left, the empty one included: the write is not atomic. *)
Theorem C35_every_prefix fs0 o path text i e bs rest : write_to_string o = Some text ->
  fs_entry fs0 path = Some (i, e) -> utf8 text = bs ++ rest ->
  crash_in_write fs0 o path (put_bytes fs0 i bs) /\ holds fs0 path bs (put_bytes fs0 i bs).
Proof.
  intros T F E. split.
  - exists text. destruct bs as [|b bs].
    + exists (WOpen i [] (utf8 text)). split; [exact T|]. eapply wr_step; [apply wr_start|]. apply (w_truncate path text fs0 i e). exact F.
    + exists (WOpen i (b :: bs) rest). split; [exact T|]. eapply wr_step.
      * eapply wr_step; [apply wr_start|]. apply (w_truncate path text fs0 i e). exact F.
      * rewrite E. rewrite <- (put_put fs0 i [] (b :: bs)). apply (w_write path text _ i [] (b :: bs) rest). discriminate.
  - exists i, (mkfe (fe_canon e) (read_bytes bs)). split; [apply entry_put; exact F|]. split; [reflexivity|].
    split; [intros e0 E0; cbn; congruence|]. intros q j e' Eq D. apply entry_put_other; auto.
Qed.
(** In particular a crash right after the file was opened loses everything silently: from_file then
    succeeds with an empty Obj. *)
Theorem C35_silent_loss fs0 g o path : canon fs0 path <> None ->
  exists fs o', crash_in_write fs0 o path fs /\ from_file fs g path = Some (OOk o') /\
                obj_pairs o' = [] /\ obj_parent o' = None.
Proof.
  intros C. unfold canon in C. destruct (fs_entry fs0 path) as [[i e]|] eqn:F; [|contradiction].
  destruct (C35_every_prefix fs0 o path _ i e [] (utf8 (fmt_body 0 o)) (write_to_string_fmt o) F eq_refl) as [K H].
  destruct H as (i' & e' & F' & Rd & Cn & _). 
  exists (put_bytes fs0 i []).
  assert (Rdy : readable (put_bytes fs0 i []) path []).
  { exists i', e'. split; [exact F'|]. split; [rewrite Rd; reflexivity|].
    rewrite (entry_put _ _ _ _ [] F) in F'. inversion F'; subst. exact C. }
  assert (Rdoc : r_doc [] []).
  { exists [], [], []. split; [reflexivity|]. split; [constructor|]. split; [constructor|left; reflexivity]. }
  eexists (MkObj _ [] None). split; [exact K|]. split; [|split; reflexivity].
  apply (file_ok _ g path [] [] Rdy Rdoc). eexists. reflexivity.
Qed.
(** An error reported by write_to_file does not mean that nothing was written. *)
Theorem C35_error_not_atomic fs0 o path text i e bs rest msg : write_to_string o = Some text ->
  fs_entry fs0 path = Some (i, e) -> utf8 text = bs ++ rest -> rest <> [] ->
  write_to_file fs0 o path (OErr (OE_IoError msg)) (put_bytes fs0 i bs).
Proof.
  intros T F E N. exists text. split; [exact T|]. destruct bs as [|b bs].
  - eapply wr_step; [eapply wr_step; [apply wr_start|apply (w_truncate path text fs0 i e); exact F]|].
    apply w_write_err. cbn [app] in E. rewrite E. exact N.
  - eapply wr_step; [eapply wr_step; [eapply wr_step; [apply wr_start|apply (w_truncate path text fs0 i e); exact F]|]|].
    + rewrite E. apply (w_write path text _ i [] (b :: bs) rest). discriminate.
    + rewrite put_put. apply w_write_err. exact N.
Qed.
(** A write can succeed (the hypothesis of [C35_write_then_load] is met). *)
Theorem C35_can_succeed fs0 o path i e : fs_entry fs0 path = Some (i, e) ->
  exists fs, write_to_file fs0 o path (OOk tt) fs /\ canon fs path = fe_canon e.
Proof.
  intros F. exists (put_bytes fs0 i (utf8 (fmt_body 0 o))). split.
  - exists (fmt_body 0 o). split; [apply write_to_string_fmt|].
    destruct (utf8 (fmt_body 0 o)) as [|b bs] eqn:E.
    + eapply wr_step; [eapply wr_step; [apply wr_start|apply (w_truncate path _ fs0 i e); exact F]|]. rewrite E. apply w_done.
    + eapply wr_step; [eapply wr_step; [eapply wr_step; [apply wr_start|apply (w_truncate path _ fs0 i e); exact F]|]|].
      * rewrite E, <- (app_nil_r (b :: bs)). apply (w_write path _ _ i [] (b :: bs) []). discriminate.
      * rewrite put_put. apply w_done.
  - unfold canon. rewrite (entry_put _ _ _ _ _ F). reflexivity.
Qed.
End P.
Print Assumptions C35_write_then_load.
Print Assumptions C35_crash.
Print Assumptions C35_crash_contents.
Print Assumptions C35_every_prefix.
Print Assumptions C35_silent_loss.
Print Assumptions C35_error_not_atomic.

Example C35_ex : let fs0 := mkfs (fun q => if str_eqb q (lit "a") then Some 0%nat else None)
                                 [mkfe (Some (lit "/a")) (inl (lit "x: 1"))] (fun _ => []) in
  exists i e, fs_entry fs0 (lit "a") = Some (i, e) /\ canon fs0 (lit "a") <> None /\
  utf8 [233; 8364; 128512] = [195; 169; 226; 130; 172; 240; 159; 152; 128] /\
  decode [195; 169; 226; 130] = None.
Proof. eexists _, _. split; [reflexivity|]. split; [discriminate|]. split; reflexivity. Qed.
