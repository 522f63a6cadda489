(** * PropRound: writing and re-loading, C01, C02, C33 (second half), C36. *)
From Verif Require Import Roundtrip PropLoad PropScope.
From Coq Require String.
Import String.StringSyntax.
Open Scope N_scope.

Section P.
Context `{U : Unicode}.

(** The error for too deep nesting, as the caller of the API sees it. *)
Definition depth_error (e : over_error) : Prop :=
  exists file line col, e = OE_ParseError (file ++ lit "Exceeded maximum recursion depth (64) at line " ++
                                           N_to_dec line ++ lit ", column " ++ N_to_dec col).
Lemma maxdepth_shown e : is_maxdepth e -> depth_error (over_from_parse e).
Proof.
  intros (l & c & E). exists (match e_file e with Some f => f ++ lit ": " | None => [] end), l, c.
  unfold over_from_parse, perr_show. rewrite E. reflexivity.
Qed.

Lemma legal_good o : wf_obj good_names o -> wf_obj legal_names o.
Proof. apply wf_weaken. intros l [_ H]. exact H. Qed.
Lemma any_good o : wf_obj good_names o -> wf_obj any_names o.
Proof. apply wf_weaken. intros; exact I. Qed.
Lemma any_good_v v : wf_value good_names v -> wf_value any_names v.
Proof. apply wf_weaken. intros; exact I. Qed.

Lemma erase_eqb o o' : wf_obj any_names o -> erase_obj o' = erase_obj o -> obj_eqb o' o = true.
Proof.
  intros W E. apply obj_eqb_iff; auto. eapply (proj2 (wf_erase _)); eauto.
Qed.
Lemma doc_round inc lim o x : wf_obj good_names o -> room lim 1 (depth_obj o - 1) ->
  exists o' y, ev_doc inc lim (quote_items o) x = Some (o', y) /\ erase_obj o' = erase_obj o.
Proof.
  intros W R. destruct (proj2 (quote_gives inc lim) o W 1 R x) as (ps & par & y & E & V & _).
  unfold ev_doc, ebind. rewrite E. destruct y as [gl sh]. eexists _, _. split; [reflexivity|].
  cbn [fst snd]. rewrite <- V. reflexivity.
Qed.
Lemma room64 n : n <= 64 -> room limit64 1 (n - 1).
Proof. intros H k K1 K2. apply N.leb_le. lia. Qed.
Lemma doc_deep inc o x : 64 < depth_obj o -> ev_doc inc limit64 (quote_items o) x = None.
Proof.
  intros H. unfold ev_doc, ebind. rewrite (proj2 (quote_deep inc) o 1 [] None x); auto; lia.
Qed.

(** ** C01 *)
Theorem C01_write_load fs g o : wf_obj good_names o -> depth_obj o <= 64 ->
  exists text o', write_to_string o = Some text /\ from_str fs g text = Some (OOk o') /\ obj_eqb o' o = true.
Proof.
  intros W D. exists (fmt_body 0 o). pose proof (write_doc o (legal_good _ W)) as R.
  destruct (doc_round (include_meaning fs None) limit64 o ([], init_sh g) W (room64 _ D)) as (o' & y & E & V).
  exists o'. split; [apply write_to_string_fmt|]. split.
  - apply (str_ok fs g _ _ R). exists y. exact E.
  - apply erase_eqb; auto using any_good.
Qed.
(** The exact bound: one level more and the text is rejected. *)
Theorem C01_too_deep fs g o : wf_obj good_names o -> 64 < depth_obj o ->
  exists text e, write_to_string o = Some text /\ from_str fs g text = Some (OErr e) /\ depth_error e.
Proof.
  intros W D. pose proof (write_doc o (legal_good _ W)) as R.
  destruct (doc_round (include_meaning fs None) no_limit o ([], init_sh g) W) as (o' & y & E & V); [intros k _ _; reflexivity|].
  destruct (str_nolimit fs g _ _ R o' y E) as [K|(e & sh & K & M)].
  - exfalso. apply (str_ok fs g _ _ R) in K as (x & K). unfold str_meaning, meaning in K.
    rewrite doc_deep in K by auto. discriminate.
  - exists (fmt_body 0 o), (over_from_parse e). split; [apply write_to_string_fmt|]. split; [|apply maxdepth_shown; auto].
    unfold from_str. rewrite K. reflexivity.
Qed.

(** ** C02 *)
Theorem C02_reload fs g o : loaded fs g o -> forall fs' g', exists text, write_to_string o = Some text /\
  (depth_obj o <= 64 -> exists o', from_str fs' g' text = Some (OOk o') /\ obj_eqb o' o = true) /\
  (64 < depth_obj o -> exists e, from_str fs' g' text = Some (OErr e) /\ depth_error e).
Proof.
  intros L fs' g'. apply loaded_wf in L. exists (fmt_body 0 o). split; [apply write_to_string_fmt|]. split; intros D.
  - destruct (C01_write_load fs' g' o L D) as (t & o' & E & K). rewrite write_to_string_fmt in E. inversion E; subst. eauto.
  - destruct (C01_too_deep fs' g' o L D) as (t & e & E & K). rewrite write_to_string_fmt in E. inversion E; subst. eauto.
Qed.

(** Loads build Objs of any depth: a: [] aa: [a] aaa: [aa] ... *)
Definition nm (n : nat) : str := repeat 97 (S n).
Fixpoint tower (n : nat) : list (str * expr) :=
  match n with
  | O => [(nm 0, Ex (AArr []) [])]
  | S m => tower m ++ [(nm (S m), Ex (AArr [Ex (AVar false (nm m)) []]) [])]
  end.
Lemma nm_legal n : legal_field (nm n).
Proof.
  exists 97, (repeat 97 n). split; [reflexivity|]. split; [left; reflexivity|]. split.
  - apply Forall_forall. intros c H. apply repeat_spec in H. subst. left. reflexivity.
  - unfold nm, reserved_words. cbn [repeat]. cbn [In lit]. intros H.
    repeat destruct H as [H|H]; try discriminate H. exact H.
Qed.
Lemma nm_inj n m : nm n = nm m -> n = m.
Proof. intros E. apply (f_equal (@List.length N)) in E. unfold nm in E. rewrite !repeat_length in E. congruence. Qed.
Lemma nm_lods n : Forall letter_or_digit (nm n).
Proof. apply Forall_forall. intros c H. apply repeat_spec in H. subst. left. left. reflexivity. Qed.
Lemma nm_var n : var_name false (nm n).
Proof.
  exists 97, (repeat 97 n). split; [reflexivity|]. split; [left; reflexivity|].
  apply Forall_forall. intros c H. apply repeat_spec in H. subst. left. left. reflexivity.
Qed.
Lemma tower_names n : map fst (tower n) = map nm (seq 0 (S n)).
Proof.
  induction n as [|n IH]; [reflexivity|]. cbn [tower]. rewrite map_app, IH. rewrite (seq_S (S n)), map_app. reflexivity.
Qed.
Lemma tower_text n : exists t, r_items (tower n) t.
Proof.
  enough (H : forall its, (its = [] \/ exists t, r_items its t) -> exists t, r_items (tower n ++ its) t).
  { destruct (H [] (or_introl eq_refl)) as (t & R). rewrite app_nil_r in R. eauto. }
  induction n as [|n IH]; intros its H; cbn [tower app].
  - destruct H as [->|(t & R)].
    + exists (nm 0 ++ c_colon :: [] ++ (c_lbrack :: [] ++ [] ++ [c_rbrack]) ++ [] ++ []).
      apply r_icons; auto using legal_item, nm_legal; [constructor| |constructor|constructor].
      apply atom_expr. apply r_arr; constructor.
    + exists (nm 0 ++ c_colon :: [] ++ (c_lbrack :: [] ++ [] ++ [c_rbrack]) ++ [32] ++ t).
      apply r_icons; auto using legal_item, nm_legal; [constructor| |repeat constructor|right; discriminate].
      apply atom_expr. apply r_arr; constructor.
  - rewrite <- app_assoc. apply IH. right. cbn [app].
    assert (A : r_expr (Ex (AArr [Ex (AVar false (nm n)) []]) []) (c_lbrack :: [] ++ (nm n ++ [] ++ []) ++ [c_rbrack])).
    { apply atom_expr. apply r_arr; [constructor|]. apply r_econs; try constructor; auto. apply atom_expr.
      change (nm n) with ((if false then [c_at] else []) ++ nm n) at 2. apply r_var, nm_var. }
    destruct H as [->|(t & R)].
    + eexists. eapply (r_icons _ _ [] [] _ [] []); [auto using legal_item, nm_legal|constructor|exact A|constructor|auto|constructor].
    + eexists. eapply (r_icons _ _ _ [] _ [32] _); auto using legal_item, nm_legal; [constructor|exact A|repeat constructor| |exact R].
      right; discriminate.
Qed.
Lemma nm_fresh n : forall fields : list pair_t, map fst fields = map nm (seq 0 (S n)) -> mem_str (nm (S n)) (map fst fields) = false.
Proof.
  intros fields E. rewrite E. destruct (mem_str _ _) eqn:M; auto. apply mem_str_iff in M.
  apply in_map_iff in M as (k & K & I). apply nm_inj in K. subst. apply in_seq in I. lia.
Qed.
Lemma tower_eval inc n : forall x, exists fields y v,
  ev_items (ev_expr inc limit64 1) (tower n) [] None x = Some ((fields, None), y) /\
  map fst fields = map nm (seq 0 (S n)) /\ assoc (nm n) fields = Some v /\ depth v = N.of_nat (S n) /\
  Forall (fun p => depth (snd p) <= N.of_nat (S n)) fields.
Proof.
  induction n as [|n IH]; intros x.
  - destruct x as [gl sh]. eexists _, _, _. split; [reflexivity|]. split; [reflexivity|]. split; [reflexivity|].
    split; [reflexivity|]. repeat constructor. cbn. lia.
  - destruct (IH x) as (fields & y & v & E & F & A & D & M). cbn [tower]. rewrite items_app. unfold ebind at 1. rewrite E.
    cbn [fst snd]. rewrite ev_items_cons, (legal_kind _ (nm_legal _)), (nm_fresh n fields F). unfold ebind at 1.
    rewrite ev_atom_expr, ev_arr. change (deep limit64 (1 + 1) ?m) with m. unfold ebind at 1 2. cbn [emap]. unfold ebind at 1.
    rewrite ev_atom_expr. cbn [ev_atom]. rewrite (name_field fields (nm n) (legal_not_builtin _ (nm_legal n))), A.
    cbn [elift]. unfold eret at 1. unfold ebind, eret. cbn [map]. unfold lub. cbn [fold_left].
    rewrite most_specific_any_l. destruct y as [gl sh]. cbn [fresh]. eexists _, _, _. split; [reflexivity|].
    split; [rewrite (seq_S (S n)), !map_app; f_equal; exact F|]. split.
    + apply assoc_last. apply (nm_fresh n fields F).
    + split; [cbn [depth map fold_right]; rewrite D; lia|]. apply Forall_app. split.
      * eapply Forall_impl; [|exact M]. cbn. intros; lia.
      * constructor; [|constructor]. cbn [snd depth map fold_right]. rewrite D. lia.
Qed.
Theorem C02_loads_any_depth fs g n : exists text o,
  from_str fs g text = Some (OOk o) /\ depth_obj o = N.of_nat n + 2.
Proof.
  destruct (tower_text n) as (t & R). destruct (tower_eval (include_meaning fs None) n ([], init_sh g)) as (fields & y & v & E & F & A & D & M).
  exists t. assert (H : r_doc (tower n) t).
  { exists [], t, []. split; [rewrite app_nil_r; reflexivity|]. split; [constructor|]. split; [exact R|left; auto]. }
  exists (MkObj (g_next (sh_g (snd y))) fields None). split.
  - apply (str_ok fs g _ _ H). unfold str_meaning, meaning, ev_doc, ebind. rewrite E. destruct y. eexists. reflexivity.
  - cbn [depth_obj]. assert (X : fold_right N.max 0 (map (fun p => match p with (f, v) => depth v end) fields) = N.of_nat (S n)); [|lia].
    apply N.le_antisymm.
    + clear - M. induction M as [|[f w] l H _ IH]; cbn in *; lia.
    + rewrite <- D. apply max_in. apply in_map_iff. apply assoc_some in A as (l & r & -> & _).
      exists (nm n, v). split; auto. apply in_or_app. right; left; auto.
Qed.
(** So the unconditional round trip is false. *)
Theorem C02_unconditional_refuted fs g : ~ (forall text o, from_str fs g text = Some (OOk o) ->
  exists out o', write_to_string o = Some out /\ from_str fs g out = Some (OOk o') /\ obj_eqb o' o = true).
Proof.
  intros H. destruct (C02_loads_any_depth fs g 63) as (text & o & E & D).
  destruct (H text o E) as (out & o' & W & K & _).
  destruct (C02_reload fs g o (or_introl (ex_intro _ text E)) fs g) as (out' & W' & _ & B).
  destruct B as (e & B & _); [lia|]. congruence.
Qed.

(** ** C33 *)
Theorem C33_rewriting_is_stable fs g o text o' : wf_obj good_names o ->
  write_to_string o = Some text -> from_str fs g text = Some (OOk o') -> write_to_string o' = Some text.
Proof.
  intros W E K. destruct (N.le_gt_cases (depth_obj o) 64) as [D|D].
  - destruct (C01_write_load fs g o W D) as (t & o2 & E2 & K2 & Q).
    rewrite E in E2. injection E2 as <-. rewrite K in K2. injection K2 as <-.
    rewrite <- E, !write_to_string_fmt. f_equal. apply fmt_body_same.
    apply obj_eqb_iff in Q; auto using any_good.
    apply any_good. eapply loaded_wf. left. eauto.
  - exfalso. destruct (C01_too_deep fs g o W D) as (t & e & E2 & K2 & _). congruence.
Qed.

(** ** C36 *)
Theorem C36_display_is_value_literal fs g f v : legal_field f -> wf_value good_names v -> depth v <= 63 ->
  exists text o v', value_display v = Some text /\
    from_str fs g (f ++ lit ": " ++ text) = Some (OOk o) /\
    obj_pairs o = [(f, v')] /\ value_eqb v' v = true.
Proof.
  intros Hf W D. exists (fmt 4 v).
  pose proof (proj1 write_text v (proj1 (wf_weaken _ _ (fun l H => proj2 H)) v W) 4) as T.
  destruct (proj1 (quote_gives (include_meaning fs None) limit64) v W 1 []) with (x := (@nil (str * value), init_sh g)) as (v' & y & E & V & _).
  { intros k K1 K2. apply N.leb_le. lia. }
  exists (field_obj y f v'), v'. split; [apply value_display_fmt|]. split; [|split; [reflexivity|]].
  - change (f ++ lit ": " ++ fmt 4 v) with (f ++ c_colon :: [32] ++ fmt 4 v).
    assert (S1 : ws [32]) by repeat constructor.
    apply (one_ok fs g f (quote v) (fmt 4 v) [32] _ Hf T S1). exists v', y. split; auto.
  - apply value_eqb_iff; auto using any_good_v. eapply (proj1 (wf_erase _)); [|exact V]. auto using any_good_v.
Qed.
Theorem C36_too_deep fs g f v : legal_field f -> wf_value good_names v -> 63 < depth v ->
  exists text e, value_display v = Some text /\
    from_str fs g (f ++ lit ": " ++ text) = Some (OErr e) /\ depth_error e.
Proof.
  intros Hf W D. exists (fmt 4 v).
  pose proof (proj1 write_text v (proj1 (wf_weaken _ _ (fun l H => proj2 H)) v W) 4) as T.
  assert (R : r_doc [(f, quote v)] (f ++ c_colon :: [32] ++ fmt 4 v)) by (apply one_doc; auto; repeat constructor).
  destruct (proj1 (quote_gives (include_meaning fs None) no_limit) v W 1 []) with (x := (@nil (str * value), init_sh g)) as (v' & y & E & V & _).
  { intros k K1 K2. reflexivity. }
  destruct (str_nolimit fs g _ _ R (field_obj y f v') (snd (match fresh y with Some y => y | None => (0, y) end))) as [K|(e & sh & K & M)].
  - unfold str_meaning. rewrite one_meaning by auto. rewrite E. reflexivity.
  - exfalso. apply (str_ok fs g _ _ R) in K as (x & K). unfold str_meaning in K. rewrite one_meaning in K by auto.
    rewrite (proj1 (quote_deep _) v) in K; [discriminate| |]; lia.
  - exists (over_from_parse e). split; [apply value_display_fmt|]. split; [|apply maxdepth_shown; auto].
    unfold from_str. change (f ++ lit ": " ++ fmt 4 v) with (f ++ c_colon :: [32] ++ fmt 4 v). rewrite K. reflexivity.
Qed.
End P.

(** ** Concrete cases *)
Section Ex.
Context `{U : Unicode}.

Definition ex_obj : obj :=
  MkObj 7 [(lit "a", VArr (MkArr 1 (TTup [TFrac; TStr])
                             [VTup (MkTup 2 [TFrac; TStr] [VFrac (-1 # 2); VStr (lit "x#y" ++ [c_nl])])]));
           (lit "b_2", VInt (-3))]
        (Some (MkObj 8 [(lit "a", VNull); (lit "c", VObj (MkObj 9 [] None))] None)).
Ltac legal := eexists _, _; split; [reflexivity|]; split; [left; reflexivity|]; split;
  [repeat (constructor; [first [left; reflexivity|right; left; reflexivity|right; right; reflexivity]|]); constructor
  |cbn; intros H; repeat destruct H as [H|H]; try discriminate H; exact H].
Example C01_ex_wf : wf_obj good_names ex_obj /\ depth_obj ex_obj = 3.
Proof.
  split; [|reflexivity]. constructor.
  - split.
    + cbn. constructor; [|constructor; [|constructor]]; cbn; [intros [H|[]]; discriminate H|tauto].
    + cbn. repeat (constructor; [legal|]). constructor.
  - cbn [map snd]. constructor; [|repeat constructor]. apply wf_arr.
    + repeat constructor.
    + split; [constructor; [apply le_ty_refl|constructor]|]. intros u Hu. inversion Hu; subst. auto.
  - intros p E. injection E as <-. constructor.
    + split.
      * cbn. constructor; [|constructor; [|constructor]]; cbn; [intros [H|[]]; discriminate H|tauto].
      * cbn. repeat (constructor; [legal|]). constructor.
    + cbn [map snd]. constructor; [constructor|]. constructor; [|constructor]. constructor. constructor.
      * split; constructor.
      * constructor.
      * discriminate.
    + discriminate.
Qed.
(** The hypothesis on names is needed: [Obj::from_pairs] accepts names that do not survive. *)
Theorem C01_from_pairs_names_refuted :
  (exists id ps o text e, obj_from_pairs id ps None = OOk o /\ write_to_string o = Some text /\
     from_str no_fs g0 text = Some (OErr e)) /\
  (exists id ps o text o', obj_from_pairs id ps None = OOk o /\ write_to_string o = Some text /\
     from_str no_fs g0 text = Some (OOk o') /\ obj_eqb o' o = false).
Proof.
  split.
  - exists 0, [(lit "true", VInt 1)]. eexists _, _, _. split; [reflexivity|]. split; [reflexivity|]. reflexivity.
  - exists 1, [(lit "^", VObj (MkObj 0 [] None))]. eexists _, _, _. split; [reflexivity|]. split; [reflexivity|].
    split; reflexivity.
Qed.
Example C02_ex : exists o, loaded no_fs g0 o /\ depth_obj o = 2.
Proof. destruct (C02_loads_any_depth no_fs g0 0) as (t & o & E & D). exists o. split; [left; eauto|exact D]. Qed.
Example C36_ex : exists v, wf_value good_names v /\ depth v = 3.
Proof. exists (VObj ex_obj). split; [constructor; apply C01_ex_wf|reflexivity]. Qed.
End Ex.
Print Assumptions C01_write_load.
Print Assumptions C01_too_deep.
Print Assumptions C02_reload.
Print Assumptions C02_unconditional_refuted.
Print Assumptions C33_rewriting_is_stable.
Print Assumptions C36_display_is_value_literal.
Print Assumptions C36_too_deep.
Print Assumptions C01_from_pairs_names_refuted.
