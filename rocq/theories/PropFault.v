(** * PropFault: C51, the error message of a load names the fault of the text, with its place. *)
From Verif Require Import FaultVal Complete LangSpec PropLoad PropScope PropLang PropLit PropComplete PropNames PropOps Prefix PropStep EvalProofs.
From Coq Require String.
Import String.StringSyntax.
Open Scope N_scope.

Section P.
Context `{U : Unicode}.

Lemma stream_mb fs file sh text k : wfvals sh -> faulty fs file IObj ([], sh) text k ->
  mb (mkperr file k) (parse_obj_stream fs (load_file fs (inc_fuel fs)) (stream_fuel text)) (mkst file text 1 1 [] sh).
Proof.
  intros W H. destruct (faulty_sound fs file _ _ _ _ H) as (pl & -> & B).
  specialize (B okf_nil (stream_fuel text) _ (good_init file text sh W)).
  cbn beta iota in B. revert B. unfold items_code, parse_obj_stream, mb, bind. 
  destruct (find_char _) as [[[]|e'| |] s']; auto; cbn [negb].
  destruct (pairs_loop _ _ _ _ _ _ _ _) as [[]]; auto. contradiction.
Qed.

(** A text with a fault fails to load, with the error of that fault: the kind, the line, the column and what the
    message says of values, types and names are those of the fault. *)
Theorem C51_error_names_the_fault fs g text k : faulty fs None IObj ([], init_sh g) text k ->
  from_str fs g text = Some (OErr (OE_ParseError (pkind_show k))).
Proof.
  intros H. apply stream_mb in H; [|constructor]. destruct (str_total fs g text) as (r & sh & E & T).
  unfold from_str. rewrite E. unfold parse_obj_str, run_stream in E. unfold mb in H.
  destruct (parse_obj_stream _ _ _ _) as [[o|e| |] s]; try contradiction; injection E as <- <-;
    try (destruct T as [[? ?]|[? ?]]; discriminate).
  rewrite H. reflexivity.
Qed.
Theorem C51_file fs g path text k : readable fs path text -> faulty fs (Some path) IObj ([], file_sh fs g path) text k ->
  from_file fs g path = Some (OErr (OE_ParseError (path ++ lit ": " ++ pkind_show k))).
Proof.
  intros Rd H. apply stream_mb in H; [|constructor]. destruct (file_total fs g path text Rd) as (r & sh & E & E' & T).
  unfold from_file. rewrite E. unfold run_stream in E'. unfold mb in H.
  destruct (parse_obj_stream _ _ _ _) as [[o|e| |] s]; try contradiction; injection E' as <- <-;
    try (destruct T as [[? ?]|[? ?]]; discriminate).
  rewrite H. cbn [fst to_ores over_from_parse]. unfold over_from_parse, perr_show. cbn [e_file e_kind]. rewrite <- app_assoc. reflexivity.
Qed.

(** A text has at most one fault. *)
Theorem C51_one_fault fs g text k1 k2 : faulty fs None IObj ([], init_sh g) text k1 -> faulty fs None IObj ([], init_sh g) text k2 -> k1 = k2.
Proof.
  intros H1 H2. apply stream_mb in H1, H2; try constructor. destruct (str_total fs g text) as (r & sh & E & T).
  unfold parse_obj_str, run_stream in E. unfold mb in H1, H2.
  destruct (parse_obj_stream _ _ _ _) as [[o|e| |] s]; try contradiction; injection E as <- <-;
    try (destruct T as [[? ?]|[? ?]]; discriminate).
  congruence.
Qed.

(** ** One more line *)
(** [text] (which loads) with the line [t] after it is refused with the error [k]. *)
Definition then_fails (fs : fsys) (g : gstate) (text t : str) (k : pkind) : Prop :=
  from_str fs g (text ++ c_nl :: t) = Some (OErr (OE_ParseError (pkind_show k))).
(** The columns of a line. *)
Definition col_at (t : str) : N := 1 + N.of_nat (length t).

Lemma count_none t : no_nl t -> count_occ N.eq_dec t c_nl = 0%nat.
Proof. intros H. apply count_occ_not_In. intros I. unfold no_nl in H. rewrite Forall_forall in H. apply (H _ I). reflexivity. Qed.
Lemma line_new text t : no_nl t -> line_of (text ++ c_nl :: t) = line_of text + 1.
Proof.
  intros H. rewrite line_app. cbn [count_occ]. destruct (N.eq_dec c_nl c_nl); [|congruence]. rewrite (count_none t H). lia.
Qed.
Lemma col_new text t : no_nl t -> col_of (text ++ c_nl :: t) = col_at t.
Proof.
  intros H. rewrite col_app. cbn [fold_left]. change (c_nl =? c_nl) with true. cbn iota. unfold col_at.
  assert (K : forall a, fold_left (fun k c => if c =? c_nl then 1 else k + 1) t a = a + N.of_nat (length t)).
  { unfold no_nl in H. induction H as [|c t Hc F IH]; intros a; [cbn; lia|]. cbn [fold_left length].
    destruct (N.eqb_spec c c_nl); [contradiction|]. rewrite IH. lia. }
  apply K.
Qed.
Lemma letter_no_nl c : letter_or_digit c -> c <> c_nl.
Proof. intros [[H|H]|H] ->; cbn in H; discriminate. Qed.
Lemma legal_no_nl f : legal_field f -> no_nl f.
Proof.
  intros H. apply legal_var in H as (c & r & -> & Hc & F). constructor; [apply letter_no_nl; left; exact Hc|].
  eapply Forall_impl; [|exact F]. intros a; apply letter_no_nl.
Qed.
Lemma no_nl_app a b : no_nl a -> no_nl b -> no_nl (a ++ b).
Proof. intros. apply Forall_app; auto. Qed.

Lemma ev_items_app_one (ev : list pair_t -> expr -> ES value) it its fields parent x :
  ev_items ev (it :: its) fields parent x = ebind (ev_items ev [it] fields parent) (fun r => ev_items ev its (fst r) (snd r)) x.
Proof.
  destruct it as [f e]. rewrite !ev_items_cons. destruct (kind_of_item f).
  - unfold ebind, eglobals. destruct (assoc f (fst x)); [reflexivity|]. destruct (ev fields e x) as [[v y]|]; [|reflexivity].
    destruct (edefine f v y) as [[u z]|]; reflexivity.
  - destruct parent; [reflexivity|]. unfold ebind. destruct (ev fields e x) as [[v y]|]; [|reflexivity]. destruct v; reflexivity.
  - destruct (mem_str f (map fst fields)); [reflexivity|]. unfold ebind. destruct (ev fields e x) as [[v y]|]; reflexivity.
  - reflexivity.
Qed.
(** Where the reader of a text that loads is after one more line end. *)
Lemma spot_items fs file root x0 its t : r_items its t -> forall u fields parent d close x P r y,
  ws u -> u <> [] -> spot fs file root x0 (InItems fields parent d close) x P ->
  ev_items (ev_expr (include_meaning fs file) limit64 d) its fields parent x = Some (r, y) ->
  spot fs file root x0 (InItems (fst r) (snd r) d close) y (P ++ t ++ u).
Proof.
  intros H. induction H as [|f e its w t w' t' Hf W He W' Nw H IH]; intros u fields parent d close x P r y Wu Nu S E.
  - cbn [ev_items] in E. injection E as <- <-. cbn [fst snd app]. apply spot_ws; auto. exact I.
  - rewrite ev_items_app_one in E. unfold ebind in E. destruct (ev_items _ [(f, e)] fields parent x) as [[[f1 p1] x1]|] eqn:E1; [|discriminate].
    cbn [fst snd] in E. destruct its as [|it its].
    + apply r_items_nil in H as ->. cbn [ev_items] in E. injection E as <- <-. cbn [fst snd].
      replace (P ++ (f ++ c_colon :: w ++ t ++ w' ++ []) ++ u) with (P ++ f ++ c_colon :: w ++ t ++ (w' ++ u))
        by (repeat (rewrite <- app_assoc; cbn [app]); reflexivity).
      eapply spot_item; eauto. apply ws_app; auto. intros X. apply app_eq_nil in X as [_ X]. auto.
    + destruct Nw as [Nw|Nw]; [discriminate|].
      replace (P ++ (f ++ c_colon :: w ++ t ++ w' ++ t') ++ u) with ((P ++ f ++ c_colon :: w ++ t ++ w') ++ t' ++ u)
        by (repeat (rewrite <- app_assoc; cbn [app]); reflexivity).
      eapply IH; eauto. eapply spot_item; eauto.
Qed.
Lemma spot_loaded fs g text o : from_str fs g text = Some (OOk o) ->
  exists y, spot fs None IObj ([], init_sh g) (InItems (obj_pairs o) (obj_parent o) 1 None) y (text ++ [c_nl]).
Proof.
  intros E. apply C41_accepted_iff in E as (its & x & (w & t & c & -> & W & H & L) & M).
  apply doc_items in M as (r & y & E & ->). exists y. cbn [obj_pairs obj_parent].
  replace ((w ++ t ++ c) ++ [c_nl]) with (([] ++ w) ++ t ++ (c ++ [c_nl])) by (rewrite <- !app_assoc; reflexivity).
  eapply spot_items; [exact H|apply last_ws; auto|intros X; apply app_eq_nil in X as [_ X]; discriminate| |exact E].
  apply spot_ws; [apply spot_start; reflexivity|exact I|exact W].
Qed.

(** *** What follows the line end *)
Lemma line_fault fs g text o t k : from_str fs g text = Some (OOk o) ->
  (forall y, items_fault fs None (obj_pairs o) (obj_parent o) 1 None y (text ++ [c_nl]) t k) ->
  then_fails fs g text t k.
Proof.
  intros E H. destruct (spot_loaded fs g text o E) as (y & S). apply C51_error_names_the_fault.
  exists (InItems (obj_pairs o) (obj_parent o) 1 None), y, (text ++ [c_nl]), t.
  split; [rewrite <- app_assoc; reflexivity|]. split; [exact S|]. split; [exact I|apply H].
Qed.
Lemma new_may_define h o gl : legal_field h -> assoc h (obj_pairs o) = None -> may_define h (obj_pairs o) (obj_parent o) gl.
Proof.
  intros Hh Nh. unfold may_define. rewrite (legal_kind h Hh). destruct (mem_str h (map fst (obj_pairs o))) eqn:M; [|reflexivity].
  apply mem_str_iff in M. exfalso. clear - M Nh. induction (obj_pairs o) as [|[f v] ps IH]; [destruct M|]. cbn [assoc map fst] in *.
  destruct (str_eqb_spec f h); [discriminate|]. destruct M; auto.
Qed.
(** ... and the value of the new field *)
Lemma value_at fs g text o h t pl P R k : before fs g text o h ->
  (forall y, spot fs None IObj ([], init_sh g) (AtValue Whole (obj_pairs o) 1 None) y (text ++ c_nl :: h ++ lit ": ") ->
     exists x, spot fs None IObj ([], init_sh g) pl x P /\ Spot.fault fs None pl x P R k) ->
  text ++ c_nl :: h ++ lit ": " ++ t = P ++ R -> Spot.fits pl R -> then_fails fs g text (h ++ lit ": " ++ t) k.
Proof.
  intros (E & Hh & Nh) H Et F. destruct (spot_loaded fs g text o E) as (y & S). apply C51_error_names_the_fault.
  destruct (H y) as (x' & S' & K); [|exists pl, x', P, R; auto].
  replace (text ++ c_nl :: h ++ lit ": ") with ((text ++ [c_nl]) ++ h ++ c_colon :: lit " ") by (rewrite <- app_assoc; reflexivity).
  eapply spot_item_value; [exact S|apply legal_item; auto|apply new_may_define; auto|repeat constructor].
Qed.

Ltac at_line := rewrite <- ?app_assoc; cbn [app]; rewrite ?line_new, ?col_new by
  (repeat first [assumption | apply legal_no_nl; assumption | apply no_nl_app | (constructor; [discriminate|]) | constructor]).

(** A bracket that nothing opens. *)
Theorem C51_line_bracket fs g text o c t : from_str fs g text = Some (OOk o) -> In c [c_rparen; c_rbrack; c_rbrace; c_gt] ->
  then_fails fs g text (c :: t) (InvalidClosingBracket None c (line_of text + 1) 1).
Proof.
  intros E H. eapply line_fault; [exact E|]. intros y.
  replace (line_of text + 1) with (line_of (text ++ [c_nl])) by (apply line_new; constructor).
  replace 1 with (col_of (text ++ [c_nl])) by (apply col_new; constructor).
  apply if_bracket; auto. destruct H as [<-|[<-|[<-|[<-|[]]]]]; reflexivity.
Qed.
(** A field that there is already; whatever the rest of the text is. *)
Theorem C51_line_duplicate fs g text o f t : from_str fs g text = Some (OOk o) -> In f (map fst (obj_pairs o)) ->
  then_fails fs g text (f ++ lit ":" ++ t) (DuplicateField f (line_of text + 1) 1).
Proof.
  intros E H. assert (Hf : legal_field f).
  { assert (L : loaded fs g o) by (left; eauto).
    destruct (C07_loaded_field_names fs g o o L (part_self _)) as [_ F]. rewrite Forall_forall in F. apply F; auto. }
  eapply line_fault; [exact E|]. intros y.
  replace (line_of text + 1) with (line_of (text ++ [c_nl])) by (apply line_new; constructor).
  replace 1 with (col_of (text ++ [c_nl])) by (apply col_new; constructor).
  apply if_dup_field; [split; [apply legal_item; auto|right; eexists; reflexivity]|apply legal_kind; auto|auto].
Qed.
(** A field without a value. *)
Theorem C51_line_no_value fs g text o h u : before fs g text o h -> blank u ->
  then_fails fs g text (h ++ lit ":" ++ u) (UnexpectedEnd (line_of (text ++ c_nl :: h ++ lit ":" ++ u))).
Proof.
  intros (E & Hh & Nh) B. eapply line_fault; [exact E|]. intros y.
  replace (text ++ c_nl :: h ++ lit ":" ++ u) with ((text ++ [c_nl]) ++ h ++ c_colon :: u) by (rewrite <- app_assoc; reflexivity).
  apply if_no_value; [apply legal_item; auto| |exact B]. apply new_may_define; auto.
Qed.
(** A character that begins no value. *)
Theorem C51_line_bad_char fs g text o h c t : before fs g text o h -> is_whitespace c = false -> ~ starts_value c ->
  then_fails fs g text (h ++ lit ": " ++ c :: t) (InvalidValueChar c (line_of text + 1) (col_at (h ++ lit ": "))).
Proof.
  intros B W N. pose proof (proj1 (proj2 B)) as Hh. eapply value_at; [exact B| | |].
  - intros y S. exists y. split; [exact S|]. cbn [Spot.fault].
    replace (line_of text + 1) with (line_of (text ++ c_nl :: h ++ lit ": ")) by (at_line; reflexivity).
    replace (col_at (h ++ lit ": ")) with (col_of (text ++ c_nl :: h ++ lit ": ")) by (at_line; reflexivity).
    apply vf_char. exact N.
  - rewrite <- app_assoc. cbn [app]. rewrite <- app_assoc. reflexivity.
  - exists c, t. auto.
Qed.

Ltac nn := repeat first [assumption | apply legal_no_nl; assumption | apply no_nl_app | (constructor; [discriminate|]) | constructor].
(** An opening bracket at the end. *)
Theorem C51_line_unclosed fs g text o h c u : before fs g text o h -> In c [c_lbrace; c_lbrack; c_lparen; c_lt] -> blank u ->
  then_fails fs g text (h ++ lit ": " ++ c :: u) (UnexpectedEnd (line_of (text ++ c_nl :: h ++ lit ": " ++ c :: u))).
Proof.
  intros B H Bu. pose proof (proj1 (proj2 B)) as Hh. set (P := text ++ c_nl :: h ++ lit ": ").
  assert (A : forall b (t : str), text ++ c_nl :: h ++ lit ": " ++ b :: t = (P ++ [b]) ++ t).
  { intros b t. unfold P. repeat (rewrite <- app_assoc; cbn [app]). reflexivity. }
  destruct H as [<-|[<-|[<-|[<-|[]]]]]; rewrite A.
  - eapply (value_at fs g text o h _ (InItems [] None (1 + 1) (Some c_rbrace))); [exact B| |apply A|exact I].
    intros y S. exists y. split; [eapply spot_obj; [exact S|discriminate|reflexivity]|].
    apply if_end; [discriminate|exact Bu].
  - eapply (value_at fs g text o h _ (InArr (obj_pairs o) (1 + 1) [])); [exact B| |apply A|exact I].
    intros y S. exists y. split; [eapply spot_arr; [exact S|discriminate|reflexivity]|].
    apply af_elems, ef_end. exact Bu.
  - eapply (value_at fs g text o h _ (InTup (obj_pairs o) (1 + 1) [])); [exact B| |apply A|exact I].
    intros y S. exists y. split; [eapply spot_tup; [exact S|discriminate|reflexivity]|].
    apply tf_elems, ef_end. exact Bu.
  - eapply (value_at fs g text o h _ (AtValue Whole (obj_pairs o) 1 None)); [exact B| |rewrite A, <- app_assoc; reflexivity|].
    + intros y S. exists y. split; [exact S|]. cbn [app Spot.fault]. rewrite <- app_assoc. apply vf_inc_end; [reflexivity|exact Bu].
    + exists c_lt, u. split; reflexivity.
Qed.

(** A name that is not a field. *)
Lemma no_builtin n : ~ builtin n -> assoc n constants = None /\ assoc n keywords = None.
Proof.
  intros N. rewrite <- assoc_builtin in N. destruct (assoc n constants); [exfalso; apply N; left; discriminate|].
  destruct (assoc n keywords); [exfalso; apply N; right; discriminate|]. auto.
Qed.
Definition start (text h : str) : str := text ++ c_nl :: h ++ lit ": ".
Lemma line_in text h t : legal_field h -> no_nl t -> line_of (start text h ++ t) = line_of text + 1.
Proof. intros Hh Ht. unfold start. rewrite <- app_assoc. cbn [app]. apply line_new. nn. Qed.
Lemma col_in text h t : legal_field h -> no_nl t -> col_of (start text h ++ t) = col_at (h ++ lit ": " ++ t).
Proof. intros Hh Ht. unfold start. rewrite <- app_assoc. cbn [app]. rewrite <- app_assoc. apply col_new. nn. Qed.
Lemma start_app text h t : text ++ c_nl :: h ++ lit ": " ++ t = start text h ++ t.
Proof. unfold start. repeat (rewrite <- app_assoc; cbn [app]). reflexivity. Qed.
Lemma col_in0 text h : legal_field h -> col_of (start text h) = col_at (h ++ lit ": ").
Proof. intros Hh. rewrite <- (app_nil_r (start text h)), (col_in text h [] Hh (Forall_nil _)), app_nil_r. reflexivity. Qed.
Lemma line_in0 text h : legal_field h -> line_of (start text h) = line_of text + 1.
Proof. intros Hh. rewrite <- (app_nil_r (start text h)). apply line_in; auto. constructor. Qed.

Lemma legal_letters f : legal_field f -> Forall letter_or_digit f.
Proof. intros H. apply legal_var in H as (c & r & -> & Hc & F). constructor; [left; exact Hc|exact F]. Qed.
Lemma name_at fs g text o h f R t k : before fs g text o h -> legal_field f -> t = f ++ R ->
  (forall y, name_fault fs None false (obj_pairs o) 1 y (start text h) t k) ->
  then_fails fs g text (h ++ lit ": " ++ t) k.
Proof.
  intros B Hf -> H. eapply (value_at fs g text o h _ (AtName false (obj_pairs o) 1 None)); [exact B| |apply start_app|].
  - intros y S. exists y. split; [eapply spot_name; exact S|apply H].
  - destruct (legal_var f Hf) as (c & r & -> & Hc & _). exists c, (r ++ R). auto.
Qed.
Theorem C51_line_unknown fs g text o h f R : before fs g text o h -> legal_field f -> assoc f (obj_pairs o) = None -> ended R ->
  then_fails fs g text (h ++ lit ": " ++ f ++ R) (VariableNotFound f (line_of text + 1) (col_at (h ++ lit ": "))).
Proof.
  intros B Hf A E. eapply name_at; [exact B|exact Hf|reflexivity|]. intros y.
  rewrite <- (col_in0 text h), <- (line_in0 text h) by apply B.
  destruct (no_builtin f (legal_not_builtin f Hf)). apply mf_variable; auto; [apply legal_letters; auto|left; exact E].
Qed.
(** A dot after a value that is no Obj, Arr or Tup. *)
Theorem C51_line_dot fs g text o h f v c R : before fs g text o h -> assoc f (obj_pairs o) = Some v -> container v = false ->
  after_dot c \/ c = c_at ->
  then_fails fs g text (h ++ lit ": " ++ f ++ lit "." ++ c :: R) (InvalidDot (get_type v) (line_of text + 1) (col_at (h ++ lit ": "))).
Proof.
  intros B A C D. pose proof (field_legal _ _ _ _ _ _ (proj1 B) A) as Hf. eapply name_at; [exact B|exact Hf|reflexivity|]. intros y.
  rewrite <- (col_in0 text h), <- (line_in0 text h) by apply B.
  apply (mf_dot fs None false (obj_pairs o) 1 y (start text h) false f c R v y); auto; [apply legal_var; auto|].
  rewrite (name_field _ _ (legal_not_builtin f Hf)), A. reflexivity.
Qed.
(** A field that an Obj does not have. *)
Theorem C51_line_member fs g text o h f q m R : before fs g text o h -> assoc f (obj_pairs o) = Some (VObj q) ->
  legal_field m -> assoc m (obj_pairs q) = None -> ended R ->
  then_fails fs g text (h ++ lit ": " ++ f ++ lit "." ++ m ++ R)
    (VariableNotFound m (line_of text + 1) (col_at (h ++ lit ": " ++ f ++ lit "."))).
Proof.
  intros B A Hm N E. pose proof (field_legal _ _ _ _ _ _ (proj1 B) A) as Hf.
  assert (NN : no_nl (f ++ lit ".")) by (apply no_nl_app; [apply legal_no_nl; auto|repeat constructor; discriminate]).
  rewrite <- (col_in text h), <- (line_in text h (f ++ lit ".")) by (apply B || exact NN).
  eapply (value_at fs g text o h _ (AtName true (obj_pairs q) (1 + 1) None) (start text h ++ f ++ lit ".") (m ++ R)); [exact B| |rewrite start_app, <- !app_assoc; reflexivity|].
  - intros y S. exists y. split.
    + eapply (spot_member _ _ _ _ false _ _ _ _ _ false f); [eapply spot_name; exact S|apply legal_var; auto|reflexivity|].
      rewrite (name_field _ _ (legal_not_builtin f Hf)), A. reflexivity.
    + destruct (no_builtin m (legal_not_builtin m Hm)). apply mf_variable; auto; [apply legal_letters; auto|left; exact E].
  - destruct (legal_var m Hm) as (c & r & -> & Hc & _). exists c, (r ++ R). split; [reflexivity|]. left. left. exact Hc.
Qed.
(** An index that is out of bounds, or that is no index. *)
Theorem C51_line_index fs g text o h f c vs n R : before fs g text o h -> assoc f (obj_pairs o) = Some c -> Spot.elements c = Some vs ->
  ended R ->
  (N.of_nat (length vs) <= n < 2 ^ 64 ->
     then_fails fs g text (h ++ lit ": " ++ f ++ lit "." ++ N_to_dec n ++ R)
       (OverErrorKind (over_error_show (out_of_bounds c n) ++ lit " at line " ++ N_to_dec (line_of text + 1) ++
                       lit ", col " ++ N_to_dec (col_at (h ++ lit ": " ++ f ++ lit "."))))) /\
  (2 ^ 64 <= n ->
     then_fails fs g text (h ++ lit ": " ++ f ++ lit "." ++ N_to_dec n ++ R)
       (InvalidIndex (Z.of_N n) (line_of text + 1) (col_at (h ++ lit ": " ++ f ++ lit ".")))).
Proof.
  intros B A El E. pose proof (field_legal _ _ _ _ _ _ (proj1 B) A) as Hf.
  assert (NN : no_nl (f ++ lit ".")) by (apply no_nl_app; [apply legal_no_nl; auto|repeat constructor; discriminate]).
  rewrite <- (col_in text h), <- (line_in text h (f ++ lit ".")) by (apply B || exact NN).
  assert (T : num_text (N_to_dec n)) by (rewrite <- (app_nil_r (N_to_dec n)); apply dec_num_text; constructor).
  assert (V : forall y, ev_atom (include_meaning fs None) limit64 (1 + 1) (obj_pairs o) (ANum (N_to_dec n)) y = Some (VInt (Z.of_N n), y))
    by (intros y; change (elift (num_value (N_to_dec n)) y = Some (VInt (Z.of_N n), y)); rewrite int_value; reflexivity).
  assert (Nm : forall y, ev_name (obj_pairs o) false f y = Some (c, y)).
  { intros y. rewrite (name_field _ _ (legal_not_builtin f Hf)), A. reflexivity. }
  split; intros L; (eapply name_at; [exact B|exact Hf|reflexivity|]; intros y).
  - pose proof (mf_index_bounds fs None false (obj_pairs o) 1 y (start text h) false f (ANum (N_to_dec n)) _ R c vs y _ y eq_refl (legal_var f Hf)
      (Nm y) El I (r_num _ T) E (V y)) as K.
    rewrite N2Z.id in K. apply K. lia.
  - eapply (mf_index fs None false (obj_pairs o) 1 y (start text h) false f (ANum (N_to_dec n)) _ R c y _ y eq_refl (legal_var f Hf)
      (Nm y)); [congruence|exact I|apply (r_num _ T)|exact E|apply V|lia].
Qed.

(** Operators on the values of two fields. *)
Lemma op_line fs g text o h f k v w op R : before fs g text o h ->
  assoc f (obj_pairs o) = Some v -> assoc k (obj_pairs o) = Some w -> complete None R -> (forall x, ev_op op v w x = None) ->
  then_fails fs g text (h ++ lit ": " ++ f ++ op_text op :: k ++ R) (op_fault op v w (start text h ++ f ++ [op_text op])).
Proof.
  intros B Af Ak C N. pose proof (field_legal _ _ _ _ _ _ (proj1 B) Af) as Hf. pose proof (field_legal _ _ _ _ _ _ (proj1 B) Ak) as Hk.
  assert (CE : ended R).
  { destruct C as [->|(c & r & -> & [H|[H _]])]; [left; auto|right|right]; exists c, r; (split; [reflexivity|]); unfold is_value_end_char;
      rewrite H; rewrite ?orb_true_r; reflexivity. }
  assert (S1 : forall y, spot fs None IObj ([], init_sh g) (AtValue Whole (obj_pairs o) 1 None) y (start text h) ->
                         spot fs None IObj ([], init_sh g) (InChain (obj_pairs o) 1 None false [] v (start text h)) y (start text h ++ f)).
  { intros y S. eapply (spot_first _ _ _ _ Whole _ _ _ _ _ (AVar false f)); [exact S|exact I|apply r_field; auto|apply ev_field; auto]. }
  destruct (is_priority op) eqn:Pr.
  - eapply (value_at fs g text o h _ (InChain (obj_pairs o) 1 None false [] v (start text h)) (start text h ++ f)); [exact B| | |].
    + intros y S. exists y. split; [apply S1; exact S|]. cbn [Spot.fault].
      replace (start text h ++ f ++ [op_text op]) with ((start text h ++ f) ++ [op_text op]) by (rewrite <- app_assoc; reflexivity).
      eapply (cf_factor _ _ _ _ _ _ _ _ _ _ op (AVar false k) k R w y); [exact Pr|apply r_field; auto|left; exact CE|apply ev_field; auto|].
      specialize (N y). destruct op; try discriminate Pr; cbn [ev_op] in N; unfold elift in N; destruct (op_value _ v w); try discriminate N; reflexivity.
    + rewrite start_app, <- !app_assoc. reflexivity.
    + right. right. eexists _, _. split; [reflexivity|]. destruct op; reflexivity.
  - eapply (value_at fs g text o h _ (InChain (obj_pairs o) 1 None false [(v, start text h, op)] w (start text h ++ f ++ [op_text op]))
      (start text h ++ f ++ op_text op :: k)); [exact B| | |].
    + intros y S. exists y. split.
      * replace (start text h ++ f ++ op_text op :: k) with ((start text h ++ f) ++ op_text op :: k) by (rewrite <- app_assoc; reflexivity).
        replace (start text h ++ f ++ [op_text op]) with ((start text h ++ f) ++ [op_text op]) by (rewrite <- app_assoc; reflexivity).
        change [(v, start text h, op)] with ([] ++ [(v, start text h, op)]).
        eapply (spot_term _ _ _ _ _ _ _ false [] v (start text h) _ _ op (AVar false k)); [apply S1; exact S|exact Pr|apply r_field; auto|apply ev_field; auto].
      * apply cf_sum; [exact C|]. cbn [sum_fault]. rewrite N. reflexivity.
    + rewrite start_app, <- !app_assoc. reflexivity.
    + right. exact CE.
Qed.
Lemma op_pos text h f op : legal_field h -> legal_field f ->
  line_of (start text h ++ f ++ [op_text op]) = line_of text + 1 /\
  col_of (start text h ++ f ++ [op_text op]) = col_at (h ++ lit ": " ++ f ++ [op_text op]).
Proof.
  intros Hh Hf. assert (NN : no_nl (f ++ [op_text op])) by (apply no_nl_app; [apply legal_no_nl; auto|repeat constructor; destruct op; discriminate]).
  split; [apply line_in|apply col_in]; auto.
Qed.
Lemma zero_divides v w q x : number v <> None -> number w = Some q -> (q == 0)%Q ->
  ev_op BDiv v w x = None /\ numeric v = true /\ numeric w = true /\ is_zero w = true.
Proof.
  intros Nv Nw Z. destruct v as [|b1|z1|q1|a1|a1|t1|o1]; try (exfalso; apply Nv; reflexivity);
    destruct w as [|b2|z2|q2|a2|a2|t2|o2]; try discriminate Nw; injection Nw as <-; cbn [ev_op op_value as_frac numeric is_zero].
  - assert (z2 = 0)%Z as -> by (unfold Qeq in Z; cbn in Z; lia). auto.
  - apply Qeq_bool_iff in Z. rewrite Z. auto.
  - assert (z2 = 0)%Z as -> by (unfold Qeq in Z; cbn in Z; lia). auto.
  - apply Qeq_bool_iff in Z. rewrite Z. auto.
Qed.
(** Division by zero. *)
Theorem C51_line_by_zero fs g text o h f k v w op R : before fs g text o h ->
  assoc f (obj_pairs o) = Some v -> assoc k (obj_pairs o) = Some w -> complete None R ->
  (op = BDiv /\ number v <> None /\ (exists q, number w = Some q /\ (q == 0)%Q)) \/
  (op = BMod /\ (exists a, v = VInt a) /\ w = VInt 0) ->
  then_fails fs g text (h ++ lit ": " ++ f ++ op_text op :: k ++ R)
    (InvalidNumeric (line_of text + 1) (col_at (h ++ lit ": " ++ f ++ [op_text op]))).
Proof.
  intros B Af Ak C D. pose proof (field_legal _ _ _ _ _ _ (proj1 B) Af) as Hf.
  destruct (op_pos text h f op (proj1 (proj2 B)) Hf) as [<- <-].
  replace (InvalidNumeric (line_of (start text h ++ f ++ [op_text op])) (col_of (start text h ++ f ++ [op_text op])))
    with (op_fault op v w (start text h ++ f ++ [op_text op])).
  - eapply op_line; eauto. intros x. destruct D as [(-> & Nv & q & Nw & Z)|(-> & [a ->] & ->)]; [|reflexivity].
    pose proof (zero_divides v w q x Nv Nw Z) as [E _]. exact E.
  - destruct D as [(-> & Nv & q & Nw & Z)|(-> & [a ->] & ->)]; [|reflexivity].
    pose proof (zero_divides v w q ([], init_sh g) Nv Nw Z) as (_ & N1 & N2 & N3). unfold op_fault. rewrite N1, N2, N3. reflexivity.
Qed.
(** Operators on other values. *)
Theorem C51_line_types fs g text o h f k v w op R : before fs g text o h ->
  assoc f (obj_pairs o) = Some v -> assoc k (obj_pairs o) = Some w -> complete None R ->
  number v = None \/ number w = None ->
  ~ (op = BPlus /\ exists a b, v = VStr a /\ w = VStr b) ->
  (op = BPlus -> forall a b, v = VArr a -> w = VArr b -> ~ exists t, common_spec (arr_inner_type a) (arr_inner_type b) t) ->
  then_fails fs g text (h ++ lit ": " ++ f ++ op_text op :: k ++ R)
    (BinaryOperatorError (get_type v) (get_type w) op (line_of text + 1) (col_at (h ++ lit ": " ++ f ++ [op_text op]))).
Proof.
  intros B Af Ak C D S A. pose proof (field_legal _ _ _ _ _ _ (proj1 B) Af) as Hf.
  destruct (op_pos text h f op (proj1 (proj2 B)) Hf) as [<- <-].
  replace (BinaryOperatorError (get_type v) (get_type w) op (line_of (start text h ++ f ++ [op_text op])) (col_of (start text h ++ f ++ [op_text op])))
    with (op_fault op v w (start text h ++ f ++ [op_text op])).
  - eapply op_line; eauto. intros x.
    destruct v as [|b1|z1|q1|a1|a1|t1|o1], w as [|b2|z2|q2|a2|a2|t2|o2]; try (destruct D; discriminate);
      destruct op; try reflexivity; try (exfalso; apply S; eauto 6; fail).
    cbn [ev_op]. specialize (A eq_refl a1 a2 eq_refl eq_refl). pose proof (most_specific_spec (arr_inner_type a1) (arr_inner_type a2)) as M.
    destruct (most_specific _ _) as [[t fl]|]; [|reflexivity]. exfalso. apply A. exists t. apply M.
  - clear - D. unfold op_fault. destruct v as [|b1|z1|q1|a1|a1|t1|o1], w as [|b2|z2|q2|a2|a2|t2|o2]; try (destruct D; discriminate);
      destruct op; reflexivity.
Qed.
(** The remainder of a Frac. *)
Theorem C51_line_mod fs g text o h f k v w R : before fs g text o h ->
  assoc f (obj_pairs o) = Some v -> assoc k (obj_pairs o) = Some w -> complete None R ->
  number v <> None -> number w <> None -> is_int v && is_int w = false ->
  then_fails fs g text (h ++ lit ": " ++ f ++ lit "%" ++ k ++ R)
    (BinaryOperatorError TFrac TFrac BMod (line_of text + 1) (col_at (h ++ lit ": " ++ f ++ lit "%"))).
Proof.
  intros B Af Ak C Nv Nw D. pose proof (field_legal _ _ _ _ _ _ (proj1 B) Af) as Hf.
  change (lit "%") with [op_text BMod]. destruct (op_pos text h f BMod (proj1 (proj2 B)) Hf) as [<- <-].
  replace (BinaryOperatorError TFrac TFrac BMod (line_of (start text h ++ f ++ [op_text BMod])) (col_of (start text h ++ f ++ [op_text BMod])))
    with (op_fault BMod v w (start text h ++ f ++ [op_text BMod])).
  - eapply (op_line fs g text o h f k v w BMod); eauto. intros x.
    destruct v, w; try (exfalso; apply Nv; reflexivity); try (exfalso; apply Nw; reflexivity); try discriminate D; reflexivity.
  - destruct v, w; try (exfalso; apply Nv; reflexivity); try (exfalso; apply Nw; reflexivity); try discriminate D; reflexivity.
Qed.
(** A sign before a value that is no number. *)
Theorem C51_line_sign fs g text o h f v op R : before fs g text o h -> assoc f (obj_pairs o) = Some v -> number v = None -> ended R ->
  then_fails fs g text (h ++ lit ": " ++ unop_text op :: f ++ R)
    (UnaryOperatorError (get_type v) op (line_of text + 1) (col_at (h ++ lit ": " ++ [unop_text op]))).
Proof.
  intros B A N E. pose proof (field_legal _ _ _ _ _ _ (proj1 B) A) as Hf.
  assert (NN : no_nl [unop_text op]) by (repeat constructor; destruct op; discriminate).
  rewrite <- (col_in text h), <- (line_in text h [unop_text op]) by (apply B || exact NN).
  eapply (value_at fs g text o h _ (AtValue Whole (obj_pairs o) 1 None)); [exact B| |apply start_app|].
  - intros y S. exists y. split; [exact S|]. eapply (vf_sign _ _ _ _ _ _ _ op (AVar false f) f R v y);
      [apply r_field; auto|left; exact E|apply ev_field; auto|destruct v; try discriminate N; reflexivity].
  - eexists _, _. split; [reflexivity|]. destruct op; reflexivity.
Qed.
(** Elements of an Arr without a common type. *)
Theorem C51_line_array fs g text o h f k v w R : before fs g text o h ->
  assoc f (obj_pairs o) = Some v -> assoc k (obj_pairs o) = Some w -> complete (Some c_rbrack) R ->
  ~ (exists t, common_spec (get_type v) (get_type w) t) ->
  then_fails fs g text (h ++ lit ": [" ++ f ++ lit " " ++ k ++ R)
    (ExpectedType (get_type v) (get_type w) (line_of text + 1) (col_at (h ++ lit ": [" ++ f ++ lit " "))).
Proof.
  intros B Af Ak C N. pose proof (field_legal _ _ _ _ _ _ (proj1 B) Af) as Hf. pose proof (field_legal _ _ _ _ _ _ (proj1 B) Ak) as Hk.
  assert (NN : no_nl (lit "[" ++ f ++ lit " ")) by (repeat apply no_nl_app; [repeat constructor; discriminate|apply legal_no_nl; auto|repeat constructor; discriminate]).
  change (h ++ lit ": [" ++ f ++ lit " ") with (h ++ lit ": " ++ (lit "[" ++ f ++ lit " ")).
  change (h ++ lit ": [" ++ f ++ lit " " ++ k ++ R) with (h ++ lit ": " ++ (lit "[" ++ f ++ lit " " ++ k ++ R)).
  rewrite <- (col_in text h), <- (line_in text h (lit "[" ++ f ++ lit " ")) by (apply B || exact NN).
  assert (L1 : lub [get_type v] = Some (get_type v)).
  { apply lub_spec. split; [constructor; [apply le_ty_refl|constructor]|]. intros t H. inversion H; auto. }
  eapply (value_at fs g text o h _ (InArr (obj_pairs o) (1 + 1) ([] ++ [v])) (start text h ++ lit "[" ++ f ++ lit " ") (k ++ R)); [exact B| | |exact I].
  - intros y S. exists y. split.
    + replace (start text h ++ lit "[" ++ f ++ lit " ") with ((start text h ++ [c_lbrack]) ++ f ++ lit " ") by (rewrite <- app_assoc; reflexivity).
      eapply spot_arr_next; [eapply spot_arr; [exact S|discriminate|reflexivity]|apply atom_expr, r_field; exact Hf| | |repeat constructor|discriminate].
      * rewrite ev_atom_expr. apply ev_field; auto.
      * cbn [app map]. rewrite L1. discriminate.
    + eapply (af_type _ _ _ _ _ _ _ (Ex (AVar false k) []) k R w y); [apply atom_expr, r_field; exact Hk|exact C| |exact L1|].
      * rewrite ev_atom_expr. apply ev_field; auto.
      * cbn [app map]. destruct (lub [get_type v; get_type w]) as [t|] eqn:L2; [|reflexivity]. apply lub_least in L2 as [L2 _].
        exfalso. apply N. exists t. inversion L2 as [|? ? X1 X2]; inversion X2; split; auto.
  - rewrite start_app, <- !app_assoc. reflexivity.
Qed.
(** A parent that is no Obj. *)
Theorem C51_line_parent fs g text o f v R : from_str fs g text = Some (OOk o) -> obj_parent o = None ->
  assoc f (obj_pairs o) = Some v -> get_type v <> TObj -> complete None R ->
  then_fails fs g text (lit "^: " ++ f ++ R)
    (OverErrorKind (over_error_show (OE_TypeMismatch TObj (get_type v)) ++ lit " at line " ++ N_to_dec (line_of text + 1) ++ lit ", col 4")).
Proof.
  intros E Np A T C. pose proof (field_legal _ _ _ _ _ _ E A) as Hf.
  eapply line_fault; [exact E|]. intros y. rewrite Np.
  assert (X : (text ++ [c_nl]) ++ lit "^" ++ c_colon :: lit " " = text ++ c_nl :: lit "^: ") by (rewrite <- app_assoc; reflexivity).
  pose proof (if_parent fs None (obj_pairs o) None 1 None y (text ++ [c_nl]) (lit "^") (lit " ") (Ex (AVar false f) []) f R v y) as K.
  unfold data_fault in K. rewrite X, line_new, col_new in K by (repeat constructor; discriminate).
  apply K; auto; [exists c_caret, []; split; [left; reflexivity|split; [right; reflexivity|constructor]]|repeat constructor|apply atom_expr, r_field; auto|].
  rewrite ev_atom_expr. apply ev_field; auto.
Qed.
(** A path that names no file. *)
Theorem C51_line_include fs g text o h cs p w R : before fs g text o h -> Forall schar_ok cs -> str_value cs = Some p ->
  is_file fs p = false \/ canon fs p = None -> ws w ->
  then_fails fs g text (h ++ lit ": <" ++ c_quote :: flat_map schar_text cs ++ c_quote :: w ++ c_gt :: R)
    (InvalidIncludePath p (line_of text + 1) (col_at (h ++ lit ": <"))).
Proof.
  intros B F V N W. assert (NN : no_nl (lit "<")) by (repeat constructor; discriminate).
  change (col_at (h ++ lit ": <")) with (col_at (h ++ lit ": " ++ lit "<")).
  rewrite <- (col_in text h), <- (line_in text h (lit "<")) by (apply B || exact NN).
  change (lit ": <" ++ c_quote :: flat_map schar_text cs ++ c_quote :: w ++ c_gt :: R)
    with (lit ": " ++ c_lt :: c_quote :: flat_map schar_text cs ++ c_quote :: w ++ c_gt :: R).
  eapply (value_at fs g text o h _ (AtValue Whole (obj_pairs o) 1 None)); [exact B| |apply start_app|].
  - intros y S. exists y. split; [exact S|].
    replace (c_lt :: c_quote :: flat_map schar_text cs ++ c_quote :: w ++ c_gt :: R)
      with (c_lt :: [] ++ (c_quote :: flat_map schar_text cs ++ [c_quote]) ++ w ++ c_gt :: R) by (cbn [app]; rewrite <- app_assoc; reflexivity).
    eapply (vf_inc_path _ _ _ _ _ _ _ [] (Ex (AStr cs) []) _ w R p y); [reflexivity|constructor|apply atom_expr, r_str; exact F|exact W| |exact N].
    rewrite ev_atom_expr. change (elift (option_map VStr (str_value cs)) y = Some (VStr p, y)). rewrite V. reflexivity.
  - eexists _, _. split; reflexivity.
Qed.
End P.

(** ** Concrete cases *)
Section Ex.
#[local] Instance ascii : Unicode := {| u_alpha := fun _ => false; u_debug := fun c => [c] |}.
Definition doc : str := lit "a: 7 b: 0 c: [1 2 3]
 d: ""x"" p: {q: 5} # end".
(** The hypotheses of the theorems hold of this document and the new field [h]. *)
Example fault_ex : exists o, before no_fs g0 doc o (lit "h") /\ from_str no_fs g0 doc = Some (OOk o) /\ obj_parent o = None /\
  assoc (lit "a") (obj_pairs o) = Some (VInt 7) /\ assoc (lit "b") (obj_pairs o) = Some (VInt 0) /\
  assoc (lit "d") (obj_pairs o) = Some (VStr (lit "x")) /\ assoc (lit "zz") (obj_pairs o) = None /\ legal_field (lit "zz") /\
  (exists c vs, assoc (lit "c") (obj_pairs o) = Some (VArr c) /\ Spot.elements (VArr c) = Some vs /\ N.of_nat (length vs) <= 9 < 2 ^ 64) /\
  (exists q, assoc (lit "p") (obj_pairs o) = Some (VObj q) /\ assoc (lit "zz") (obj_pairs q) = None) /\
  complete None (lit " k: 1") /\ ended (lit " k: 1") /\ blank (lit " # x") /\ ~ starts_value c_star.
Proof.
  eexists. split; [split; [vm_compute; reflexivity|split; [|reflexivity]]|].
  { exists 104, []. split; [reflexivity|]. split; [left; reflexivity|]. split; [constructor|]. intros X. vm_compute in X. intuition discriminate. }
  do 6 (split; [vm_compute; reflexivity|]).
  split. { exists 122, [122]. split; [reflexivity|]. split; [left; reflexivity|]. split; [repeat constructor|]. intros X. vm_compute in X. intuition discriminate. }
  split; [eexists _, _; split; [vm_compute; reflexivity|split; [reflexivity|split; [vm_compute; discriminate|reflexivity]]]|].
  split; [eexists; split; [vm_compute; reflexivity|reflexivity]|].
  split; [right; eexists _, _; split; [reflexivity|left; reflexivity]|].
  split; [right; eexists _, _; split; [reflexivity|reflexivity]|].
  split; [exists (lit " "), (lit "# x"); split; [reflexivity|split; [repeat constructor|right; exists (lit " x"); split; [reflexivity|repeat constructor; discriminate]]]|].
  intros [H|[H|H]]; [destruct H as [H|H]; vm_compute in H; discriminate|vm_compute in H; discriminate|vm_compute in H; intuition discriminate].
Qed.
(** What the messages look like. *)
Definition message (t : str) : option str :=
  match from_str no_fs g0 (doc ++ c_nl :: t) with Some (OErr (OE_ParseError m)) => Some m | _ => None end.
Example messages_ex :
  message (lit "h: zz") = Some (lit "Variable ""zz"" at line 3, column 4 could not be found") /\
  message (lit "a: junk ((") = Some (lit "Duplicate field ""a"" at line 3, column 1") /\
  message (lit "h: a/b k: 1") = Some (lit "Invalid numeric value at line 3, column 6") /\
  message (lit "h: a+d") = Some (lit "Could not apply operator '+' on types Int and Str at line 3, column 6") /\
  message (lit "h: c.9") = Some (lit "Arr index 9 out of bounds at line 3, col 6") /\
  message (lit "h: p.zz") = Some (lit "Variable ""zz"" at line 3, column 6 could not be found") /\
  message (lit "h: [a d]") = Some (lit "Expected Int at line 3, column 7; found Str") /\
  message (lit "^: a") = Some (lit "Type mismatch: expected Obj, found Int at line 3, col 4") /\
  message (lit "h: <""f"">") = Some (lit "Invalid include path ""f"" at line 3, column 5") /\
  message (lit "h: -d") = Some (lit "Could not apply operator '-' on type Str at line 3, column 5") /\
  message (lit "h: a.b") = Some (lit "Invalid use of dot notation on value of type Int at line 3, column 4; value must be an Obj, Arr, or Tup.") /\
  message (lit ") x") = Some (lit "Invalid closing bracket ')' at line 3, column 1; expected none") /\
  message (lit "h: (") = Some (lit "Unexpected end at line 3").
Proof. vm_compute. repeat split. Qed.
End Ex.

Print Assumptions C51_error_names_the_fault.
Print Assumptions C51_file.
Print Assumptions C51_one_fault.
Print Assumptions C51_line_bracket.
Print Assumptions C51_line_duplicate.
Print Assumptions C51_line_no_value.
Print Assumptions C51_line_bad_char.
Print Assumptions C51_line_unclosed.
Print Assumptions C51_line_unknown.
Print Assumptions C51_line_dot.
Print Assumptions C51_line_member.
Print Assumptions C51_line_index.
Print Assumptions C51_line_by_zero.
Print Assumptions C51_line_types.
Print Assumptions C51_line_mod.
Print Assumptions C51_line_sign.
Print Assumptions C51_line_array.
Print Assumptions C51_line_parent.
Print Assumptions C51_line_include.
