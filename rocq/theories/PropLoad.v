(** * Properties of every load: C03-C08, C21 (no '@' field), C22-C24.

    Loads range over every text, every finite file system and every process history [g]. *)
From Verif Require Import Include Fuel AgreeBase.
From Coq Require String.
Import String.StringSyntax.
Open Scope N_scope.

(** ** Specification *)

(** The text names a line. *)
Definition names_line (msg : str) : Prop :=
  exists pre l post, msg = pre ++ lit "line " ++ N_to_dec l ++ post.

(** ** Instances of the general theorem *)
Section P.
Context `{U : Unicode}.

Notation TT := (fun _ : gstate => True).
Lemma str_spec fs g text :
  match parse_obj_str fs g text with
  | (Ok o, sh) => wf_obj good_names o /\ SI fs TT [] [] sh
  | (Err e, sh) => ((e_file e = None /\ located text (e_kind e)) \/ IE fs e) /\ SW fs TT e sh
  | (Panic, _) => False
  | (NoFuel, _) => False
  end.
Proof. apply (load_str_spec fs TT); auto. Qed.

Lemma file_spec fs g path :
  match parse_obj_file fs g path with
  | (Ok o, sh) => wf_obj good_names o /\ exists C, SI fs TT [] C sh
  | (Err er, sh) =>
      (IE fs er \/ (fs_entry fs path = None /\ er = mkperr None (IoErrorKind (fs_open_err fs path))))
      /\ SW fs TT er sh
  | (Panic, _) => is_file fs path = true /\ canon fs path = None
  | (NoFuel, _) => False
  end.
Proof.
  destruct (fs_entry fs path) as [[i e]|] eqn:E.
  - pose proof (load_file_spec fs TT (fun _ _ => I) (fun _ _ _ _ => I) (fe_canon e = None) g path i e I E
                               (fun x => x)) as H.
    destruct (parse_obj_file fs g path) as [[o|er| |] sh]; auto.
    + tauto.
    + unfold is_file, canon. rewrite E. auto.
  - unfold parse_obj_file, open_file. rewrite E. split; auto.
    apply (SI_SW fs TT [] []); auto. split; [reflexivity|]. split; [apply LI_init|exact I].
Qed.

(** ** C03 *)

(** Loading a string never panics and never exhausts the recursion budget: the API returns. *)
Theorem C03_from_str_returns fs g text : exists r, from_str fs g text = Some r.
Proof.
  unfold from_str. pose proof (str_spec fs g text) as H.
  destruct (parse_obj_str fs g text) as [[o|e| |] sh]; cbn; eauto; contradiction.
Qed.

(** Loading a file: the only possible panic needs a top-level file that is readable but whose
    canonical path does not exist or is not UTF-8. *)
Theorem C03_from_file_returns fs g path :
  (is_file fs path = true -> canon fs path <> None) -> exists r, from_file fs g path = Some r.
Proof.
  intros Hc. unfold from_file. pose proof (file_spec fs g path) as H.
  destruct (parse_obj_file fs g path) as [[o|e| |] sh]; cbn; eauto; [|contradiction].
  destruct H as [H1 H2]. exfalso. apply Hc; auto.
Qed.

(** ** C04 *)
Theorem C04_loading_terminates fs g :
  (forall text, fst (parse_obj_str fs g text) <> NoFuel) /\
  (forall path, fst (parse_obj_file fs g path) <> NoFuel).
Proof.
  split; [intros text; pose proof (str_spec fs g text) as H; destruct (parse_obj_str fs g text) as [[] ?]
         |intros path; pose proof (file_spec fs g path) as H; destruct (parse_obj_file fs g path) as [[] ?]];
  cbn; congruence || contradiction.
Qed.

(** The bounds on the recursion are not observable: with more the result is the same.  ([n] bounds
    calls and loop iterations in the top-level text, [k] the nesting of includes.) *)
Theorem C04_larger_budget_same_result fs g text n k :
  (stream_fuel text <= n)%nat -> (inc_fuel fs <= k)%nat ->
  run_stream (parse_obj_stream fs (load_file fs k) n) None text (init_sh g) = parse_obj_str fs g text.
Proof.
  intros L1 L2. unfold parse_obj_str.
  destruct (upto_run (parse_obj_stream fs (load_file fs (inc_fuel fs)) (stream_fuel text))
      (parse_obj_stream fs (load_file fs k) n) None text (init_sh g)) as [H|H]; auto.
  - apply upto_obj_stream; auto. intros. apply load_file_mono. auto.
  - exfalso. destruct (C04_loading_terminates fs g) as [T _]. apply (T text). exact H.
Qed.

(** ** C05 *)
Lemma names_line_l a m : names_line m -> names_line (a ++ m).
Proof. intros (p & l & q & ->). exists (a ++ p), l, q. now rewrite <- app_assoc. Qed.
Lemma names_line_r m b : names_line m -> names_line (m ++ b).
Proof. intros (p & l & q & ->). exists p, l, (q ++ b). now rewrite <- !app_assoc. Qed.
Lemma names_line_at l c : names_line (at_line_col l c).
Proof. exists (lit " at "), l, (lit ", column " ++ N_to_dec c). reflexivity. Qed.

Lemma located_names_line T k : located T k -> names_line (pkind_show k).
Proof.
  destruct k; intros H; cbn [pkind_show];
    try (repeat match goal with
         | |- names_line (at_line_col _ _) => apply names_line_at
         | |- names_line (at_line_col _ _ ++ _) => apply names_line_r
         | |- names_line (_ ++ _) => apply names_line_l
         end; fail); try contradiction.
  - exists (lit "Unexpected end at "), line, []. now rewrite app_nil_r.
  - cbn [located] in H. destruct H as (e & l & c & E & _). inversion E; subst.
    cbn [from_over e_kind].
    exists (over_error_show e ++ lit " at "), l, (lit ", col " ++ N_to_dec c).
    rewrite <- app_assoc. reflexivity.
Qed.

(** [io_error fs msg]: reading some existing file fails, and [msg] is the system's message. *)
Definition io_error (fs : fsys) (msg : str) : Prop :=
  exists path i fe, fs_entry fs path = Some (i, fe) /\ fe_read fe = inr msg.

Lemma IE_message fs e : IE fs e -> names_line (perr_show e) \/ io_error fs (perr_show e).
Proof.
  intros [(p & i & fe & t & _ & _ & _ & L)|(p & i & fe & m & E1 & E2 & ->)].
  - left. unfold perr_show. apply names_line_l. eapply located_names_line; eauto.
  - right. cbn. exists p, i, fe. auto.
Qed.

Theorem C05_from_str_error_names_line fs g text e :
  from_str fs g text = Some (OErr e) ->
  exists msg, e = OE_ParseError msg /\ (names_line msg \/ io_error fs msg).
Proof.
  unfold from_str. pose proof (str_spec fs g text) as H.
  destruct (parse_obj_str fs g text) as [[o|er| |] sh]; cbn; intros E; inversion E; subst.
  exists (perr_show er). split; auto. destruct H as [[[_ H]|H] _].
  - left. unfold perr_show. apply names_line_l. eapply located_names_line; eauto.
  - apply IE_message; auto.
Qed.

Theorem C05_from_file_error_names_line fs g path e :
  from_file fs g path = Some (OErr e) ->
  exists msg, e = OE_ParseError msg /\
    (names_line msg \/ io_error fs msg \/ (is_file fs path = false /\ msg = fs_open_err fs path)).
Proof.
  unfold from_file. pose proof (file_spec fs g path) as H.
  destruct (parse_obj_file fs g path) as [[o|er| |] sh]; cbn; intros E; inversion E; subst.
  exists (perr_show er). split; auto. destruct H as [[H|[H1 ->]] _].
  - apply IE_message in H. tauto.
  - right. right. unfold is_file. rewrite H1. auto.
Qed.

(** The conversion of digits to a big integer inside the parser never fails. *)
Theorem C05_no_bigint_error fs g :
  (forall text e sh m, parse_obj_str fs g text = (Err e, sh) -> e_kind e <> ParseIntErrorKind m) /\
  (forall path e sh m, parse_obj_file fs g path = (Err e, sh) -> e_kind e <> ParseIntErrorKind m).
Proof.
  assert (K : forall e m, IE fs e -> e_kind e <> ParseIntErrorKind m).
  { intros e m [(p & i & fe & t & _ & _ & _ & L)|(p & i & fe & m' & E1 & E2 & ->)]; [|discriminate].
    intros E. rewrite E in L. exact L. }
  split.
  - intros text e sh m E. pose proof (str_spec fs g text) as H. rewrite E in H.
    destruct H as [[[_ H]|H] _]; auto. intros E'. rewrite E' in H. exact H.
  - intros path e sh m E. pose proof (file_spec fs g path) as H. rewrite E in H.
    destruct H as [[H|[_ ->]] _]; auto. discriminate.
Qed.

(** ** C06 *)

(** An error of a string load is located in the string (no file is named), or in the text of the
    included file it names, or is the I/O error of an included file. *)
Theorem C06_from_str_error_located fs g text e sh :
  parse_obj_str fs g text = (Err e, sh) ->
  (e_file e = None /\ located text (e_kind e)) \/ error_in_file fs e \/ error_unreadable fs e.
Proof. intros E. pose proof (str_spec fs g text) as H. rewrite E in H. apply H. Qed.

Theorem C06_from_file_error_located fs g path e sh :
  parse_obj_file fs g path = (Err e, sh) ->
  error_in_file fs e \/ error_unreadable fs e \/
  (is_file fs path = false /\ e = mkperr None (IoErrorKind (fs_open_err fs path))).
Proof.
  intros E. pose proof (file_spec fs g path) as H. rewrite E in H.
  destruct H as [[[H|H]|[H1 H2]] _]; auto. right; right. unfold is_file. rewrite H1. auto.
Qed.

(** ** C07, C08 *)
(** [loaded fs g o]: [o] is the result of some load. *)
Definition loaded (fs : fsys) (g : gstate) (o : obj) : Prop :=
  (exists text, from_str fs g text = Some (OOk o)) \/ (exists path, from_file fs g path = Some (OOk o)).

Lemma loaded_wf fs g o : loaded fs g o -> wf_obj good_names o.
Proof.
  intros [[text E]|[path E]].
  - unfold from_str in E. pose proof (str_spec fs g text) as H.
    destruct (parse_obj_str fs g text) as [[o'|er| |] sh]; cbn in E; inversion E; subst. apply H.
  - unfold from_file in E. pose proof (file_spec fs g path) as H.
    destruct (parse_obj_file fs g path) as [[o'|er| |] sh]; cbn in E; inversion E; subst. apply H.
Qed.

Theorem C07_loaded_field_names fs g o p :
  loaded fs g o -> part (VObj p) (VObj o) ->
  NoDup (map fst (obj_pairs p)) /\ Forall legal_field (map fst (obj_pairs p)).
Proof.
  intros L P. apply loaded_wf in L. apply (wf_part _ _ (wf_vobj _ _ L)) in P.
  inversion P; subst. inversion H0; subst. exact H.
Qed.

Theorem C07_loaded_tups_and_fracs fs g o :
  loaded fs g o ->
  (forall t, part (VTup t) (VObj o) -> tup_types t = map get_type (tup_values t)) /\
  (forall q, part (VFrac q) (VObj o) -> lowest q).
Proof.
  intros L. apply loaded_wf in L. split.
  - intros t P. apply (wf_part _ _ (wf_vobj _ _ L)) in P. inversion P; subst. reflexivity.
  - intros q P. apply (wf_part _ _ (wf_vobj _ _ L)) in P. inversion P; subst. auto.
Qed.

Theorem C08_loaded_arrays fs g o a :
  loaded fs g o -> part (VArr a) (VObj o) ->
  least_spec_all (map get_type (arr_values a)) (arr_inner_type a) /\
  (forall v w, In v (arr_values a) -> In w (arr_values a) ->
     exists t, common_spec (get_type v) (get_type w) t).
Proof.
  intros L P. apply loaded_wf in L. apply (wf_part _ _ (wf_vobj _ _ L)) in P.
  inversion P as [| | | | |id t vs Hf Hl| |]; subst. cbn. split; auto. intros v w Hv Hw. exists t.
  destruct Hl as [Hl _]. unfold common_spec_all in Hl. rewrite Forall_forall in Hl.
  split; apply Hl; apply in_map; auto.
Qed.

(** ** C21, first part: no field of a loaded Obj starts with '@'. *)
Theorem C21_no_global_field fs g o p f r :
  loaded fs g o -> part (VObj p) (VObj o) -> f = c_at :: r -> ~ In f (map fst (obj_pairs p)).
Proof.
  intros L P -> I. apply (C07_loaded_field_names _ _ _ _ L) in P as [_ H].
  rewrite Forall_forall in H. apply H in I as (c & r' & E & A & _). inversion E; subst.
  destruct A as [A|A]; [|discriminate]. discriminate.
Qed.

(** ** C22-C24: statements about the log of a load *)
Definition load_log (fs : fsys) (g : gstate) (log : list event) (cyc : bool) : Prop :=
  (exists text r sh, parse_obj_str fs g text = (r, sh) /\ log = sh_log sh /\
     cyc = match r with Err e => is_cyc (e_kind e) | _ => false end) \/
  (exists path r sh, parse_obj_file fs g path = (r, sh) /\ log = sh_log sh /\ r <> Panic /\
     cyc = match r with Err e => is_cyc (e_kind e) | _ => false end).

Lemma load_log_spec fs g log cyc : load_log fs g log cyc ->
  NoDup (opens log) /\ includes_ok fs log /\
  (forall after, cyclic_request log after -> after = [] /\ cyc = true) /\
  (cyc = true -> cyclic_request log []).
Proof.
  assert (A : forall C sh, SI fs TT [] C sh -> NoDup (opens (sh_log sh)) /\ includes_ok fs (sh_log sh) /\
     forall after, ~ cyclic_request (sh_log sh) after).
  { intros C sh (_ & [] & _). auto. }
  intros [(text & r & sh & E & -> & ->)|(path & r & sh & E & -> & Np & ->)].
  - pose proof (str_spec fs g text) as H. rewrite E in H. destruct r; try contradiction.
    + destruct H as [_ H]. apply A in H as (H1 & H2 & H3). split; [auto|]. split; [auto|].
      split; [intros aft K; exfalso; eapply H3; eauto|discriminate].
    + destruct H as [_ (H1 & H2 & H3 & H4 & _)]. auto.
  - pose proof (file_spec fs g path) as H. rewrite E in H. destruct r; try contradiction; try congruence.
    + destruct H as [_ [C H]]. apply A in H as (H1 & H2 & H3). split; [auto|]. split; [auto|].
      split; [intros aft K; exfalso; eapply H3; eauto|discriminate].
    + destruct H as [_ (H1 & H2 & H3 & H4 & _)]. auto.
Qed.

(** A request to include a file that is being parsed is the last thing a load does: the load fails
    with the cyclic-include error; and that error is reported only for such a request. *)
Theorem C22_cyclic_include_rejected fs g log cyc :
  load_log fs g log cyc ->
  (forall after, cyclic_request log after -> after = [] /\ cyc = true) /\
  (cyc = true -> cyclic_request log []).
Proof. intros H. apply load_log_spec in H. tauto. Qed.

(** A file is never opened while it is being parsed. *)
Theorem C22_never_reopened_in_progress fs g log cyc later earlier c :
  load_log fs g log cyc -> log = later ++ EOpen (Some c) :: earlier -> ~ in_progress c earlier.
Proof.
  intros H E [K _]. apply load_log_spec in H as [H _]. subst log. unfold opens in H.
  rewrite flat_map_app in H. cbn in H. apply NoDup_remove_2 in H. apply H. apply in_or_app. auto.
Qed.

Theorem C23_each_file_opened_once fs g log cyc :
  load_log fs g log cyc -> NoDup (opens log).
Proof. intros H. apply load_log_spec in H. tauto. Qed.

(** All includes of one file give the same instance (ids included), whatever keyword they use. *)
Theorem C23_includes_share fs g log cyc c ty1 v1 ty2 v2 :
  load_log fs g log cyc -> In (EInc c ty1 v1) log -> In (EInc c ty2 v2) log -> v1 = v2.
Proof.
  intros H I1 I2. apply load_log_spec in H as (_ & H & _).
  apply in_split in I1 as (l1 & l2 & E). pose proof I2 as I2'. rewrite E in I2.
  apply in_app_or in I2 as [I2|[I2|I2]].
  - apply in_split in I2 as (l3 & l4 & ->). rewrite <- app_assoc in E. cbn in E.
    destruct (H _ _ _ _ _ E) as [_ K]. eapply (K ty1). apply in_or_app. right. left. auto.
  - congruence.
  - destruct (H _ _ _ _ _ E) as [_ K]. symmetry. eapply K; eauto.
Qed.

(** The first include of a file has the kind it asks for (Str: the text of that file). *)
Theorem C24_first_include_kind fs g log cyc later earlier c ty v :
  load_log fs g log cyc -> log = later ++ EInc c ty v :: earlier ->
  (forall ty' v', ~ In (EInc c ty' v') earlier) -> of_kind fs c ty v.
Proof.
  intros H E N. apply load_log_spec in H as (_ & H & _). destruct (H _ _ _ _ _ E) as [K _]. auto.
Qed.

(** A later include of the same file gives the first value, whatever keyword is written. *)
Theorem C24_later_include_keeps_first_value fs g log cyc later earlier c ty v ty1 v1 :
  load_log fs g log cyc -> log = later ++ EInc c ty v :: earlier ->
  In (EInc c ty1 v1) earlier -> v = v1.
Proof.
  intros H E I. apply load_log_spec in H as (_ & H & _). destruct (H _ _ _ _ _ E) as [_ K].
  symmetry. eapply K; eauto.
Qed.

(** The log records the includes truly: an include that evaluates to [v] ends by logging [v] under
    the canonical path of the file the written path denotes. *)
Theorem C23_include_is_logged fs load ty f line col s v s' :
  finish_include fs load ty f line col s = (Ok v, s') ->
  exists c log', sh_log (s_sh s') = EInc c ty v :: log' /\
    canon fs (match s_file s with Some file => beside file f | None => f end) = Some c.
Proof.
  unfold finish_include, bind, getfile, get_sh, put_sh, ret, fail, panic, run_include.
  unfold assert_. destruct (has_parent (s_file s)); [|discriminate]. unfold ret.
  set (path := match s_file s with Some file => beside file f | None => f end).
  destruct (negb (is_file fs path)); [discriminate|].
  destruct (canon fs path) as [c|]; [|discriminate].
  intros H. exists c. repeat match goal with
  | H : context [match ?x with _ => _ end] |- _ => destruct x eqn:?; try discriminate
  end; inversion H; subst; cbn; eauto.
Qed.
End P.

(** ** Concrete cases *)
Section Ex.
#[local] Instance ascii_only : Unicode := {| u_alpha := fun _ => false; u_debug := fun c => [c] |}.
Definition nl : str := [c_nl].
Definition q (s : str) : str := [c_quote] ++ s ++ [c_quote].

(** files: a includes b twice (as Obj, then as Str); c and d include each other; e is unreadable and
    f includes it; g includes b and has no canonical path *)
Definition ex_files : list fentry :=
  [ mkfe (Some (lit "/a")) (inl (lit "x: <" ++ q (lit "b") ++ lit "> y: <Str " ++ q (lit "b") ++ lit ">"));
    mkfe (Some (lit "/b")) (inl (lit "z: [1 2]  t: (1.5 null)"));
    mkfe (Some (lit "/c")) (inl (lit "x: <" ++ q (lit "d") ++ lit ">"));
    mkfe (Some (lit "/d")) (inl (lit "x: <" ++ q (lit "c") ++ lit ">"));
    mkfe (Some (lit "/e")) (inr (lit "permission denied"));
    mkfe (Some (lit "/f")) (inl (lit "x: <" ++ q (lit "e") ++ lit ">"));
    mkfe None (inl (lit "x: <" ++ q (lit "b") ++ lit ">"));
    mkfe (Some (lit "/h")) (inl (lit "x:" ++ nl ++ lit " [1 null]")) ].
Definition ex_fs : fsys :=
  mkfs
       (fun p => match p with [97] => Some 0%nat | [98] => Some 1%nat | [99] => Some 2%nat
                 | [100] => Some 3%nat | [101] => Some 4%nat | [102] => Some 5%nat
                 | [103] => Some 6%nat | [104] => Some 7%nat | _ => None end)
       ex_files (fun _ => lit "no such file").

(** C03: the hypothesis of [C03_from_file_returns] is needed. *)
Theorem C03_no_canonical_path_panics :
  exists fs g path, is_file fs path = true /\ canon fs path = None /\ from_file fs g path = None /\
    fst (parse_obj_file fs g path) = Panic.
Proof. exists ex_fs, g0, (lit "g"). vm_compute. auto. Qed.

Example C03_ex_ok : exists o, from_file ex_fs g0 (lit "a") = Some (OOk o) /\ obj_len o = 2.
Proof. eexists. split; vm_compute; reflexivity. Qed.
Example C03_ex_hyp : is_file ex_fs (lit "a") = true /\ canon ex_fs (lit "a") <> None.
Proof. split; [reflexivity|discriminate]. Qed.

Example C05_ex_str :
  from_str ex_fs g0 (lit "a: 1" ++ nl ++ lit "b: 1]") =
  Some (OErr (OE_ParseError (lit "Invalid closing bracket ']' at line 2, column 5; expected none"))).
Proof. vm_compute. reflexivity. Qed.
Example C05_ex_included :
  from_str ex_fs g0 (lit "a: <" ++ q (lit "h") ++ lit ">") =
  Some (OErr (OE_ParseError (lit "h: Expected Int at line 2, column 5; found Null"))).
Proof. vm_compute. reflexivity. Qed.
(** An I/O error inside an included file names neither a line nor the file. *)
Theorem C05_io_error_in_include_has_no_line :
  exists fs g path, from_file fs g path = Some (OErr (OE_ParseError (lit "permission denied"))).
Proof. exists ex_fs, g0, (lit "f"). vm_compute. reflexivity. Qed.

(** C06: an offending newline in a field name is reported one line too low, at column 0: no
    position of the text. *)
Theorem C06_newline_position_refuted :
  exists text e sh l c, parse_obj_str no_fs g0 text = (Err e, sh) /\
    e_kind e = InvalidFieldChar c_nl l c /\ ~ at_pos text l c.
Proof.
  exists (lit "a" ++ nl). do 4 eexists. split; [vm_compute; reflexivity|]. split; [reflexivity|].
  intros (pre & suf & _ & _ & ls & la & _ & _ & _ & E). lia.
Qed.
Example C06_ex_value_char :
  fst (parse_obj_str no_fs g0 (lit "a: 1" ++ nl ++ lit "b: 2$")) =
  Err (mkperr None (InvalidValueChar 36 2 5)).
Proof. vm_compute. reflexivity. Qed.

Example C07_ex : exists o, loaded ex_fs g0 o /\
  exists p, part (VObj p) (VObj o) /\ map fst (obj_pairs p) = [lit "z"; lit "t"].
Proof.
  eexists. split.
  - right. exists (lit "a"). vm_compute. reflexivity.
  - eexists. split; [|shelve].
    eapply part_field; [left; reflexivity|]. apply part_self.
    Unshelve. reflexivity.
Qed.
Example C08_ex : exists o a, loaded ex_fs g0 o /\ part (VArr a) (VObj o) /\
  arr_inner_type a = TInt /\ arr_len a = 2.
Proof.
  eexists. eexists. split.
  - right. exists (lit "b"). vm_compute. reflexivity.
  - split; [eapply part_field; [left; reflexivity|apply part_self]|]. split; reflexivity.
Qed.

Lemma ex_log path r sh : parse_obj_file ex_fs g0 path = (r, sh) -> r <> Panic ->
  load_log ex_fs g0 (sh_log sh) (match r with Err e => is_cyc (e_kind e) | _ => false end).
Proof. intros E N. right. exists path, r, sh. auto. Qed.

Example C22_ex : exists log, load_log ex_fs g0 log true /\ cyclic_request log [].
Proof.
  destruct (parse_obj_file ex_fs g0 (lit "c")) as [r sh] eqn:E.
  pose proof (ex_log _ _ _ E) as L. vm_compute in E. inversion E; subst.
  eexists. split; [apply L; discriminate|].
  exists (lit "/c"). eexists. split; [reflexivity|]. split; [cbn; auto|].
  cbn. intros H. repeat destruct H as [H|H]; try discriminate; auto.
Qed.
Example C23_ex : exists log v, load_log ex_fs g0 log false /\
  In (EInc (lit "/b") IObj v) log /\ In (EInc (lit "/b") IStr v) log.
Proof.
  destruct (parse_obj_file ex_fs g0 (lit "a")) as [r sh] eqn:E.
  pose proof (ex_log _ _ _ E) as L. vm_compute in E. inversion E; subst.
  do 2 eexists. split; [apply L; discriminate|]. split; cbn; auto 10.
Qed.
(** C24: the keyword of the second include is ignored: a Str include yields an Obj. *)
Theorem C24_later_keyword_ignored :
  exists fs g path log cyc c v, load_log fs g log cyc /\ is_file fs path = true /\
    In (EInc c IStr v) log /\ get_type v = TObj.
Proof.
  destruct (parse_obj_file ex_fs g0 (lit "a")) as [r sh] eqn:E.
  pose proof (ex_log _ _ _ E) as L. vm_compute in E. inversion E; subst.
  exists ex_fs, g0, (lit "a"). do 2 eexists. exists (lit "/b"). eexists.
  split; [apply L; discriminate|]. split; [reflexivity|]. split; [cbn; auto|reflexivity].
Qed.
End Ex.

Print Assumptions C03_from_str_returns.
Print Assumptions C03_from_file_returns.
Print Assumptions C03_no_canonical_path_panics.
Print Assumptions C04_loading_terminates.
Print Assumptions C04_larger_budget_same_result.
Print Assumptions C05_from_str_error_names_line.
Print Assumptions C05_from_file_error_names_line.
Print Assumptions C05_no_bigint_error.
Print Assumptions C05_io_error_in_include_has_no_line.
Print Assumptions C06_from_str_error_located.
Print Assumptions C06_from_file_error_located.
Print Assumptions C06_newline_position_refuted.
Print Assumptions C07_loaded_field_names.
Print Assumptions C07_loaded_tups_and_fracs.
Print Assumptions C08_loaded_arrays.
Print Assumptions C21_no_global_field.
Print Assumptions C22_cyclic_include_rejected.
Print Assumptions C22_never_reopened_in_progress.
Print Assumptions C23_each_file_opened_once.
Print Assumptions C23_includes_share.
Print Assumptions C23_include_is_logged.
Print Assumptions C24_first_include_kind.
Print Assumptions C24_later_include_keeps_first_value.
Print Assumptions C24_later_keyword_ignored.
