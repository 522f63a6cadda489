(** * PropFiles: loading files and the file system around them (C56), and C25, C26, C27, C41, C50 for files. *)
From Verif Require Export Locality PropInclude PropLex PropText Lex LexSpec PropComplete PropScope PropOps PropNames Prefix.
From Coq Require String.
Import String.StringSyntax.
Open Scope N_scope.

Section P.
Context `{U : Unicode}.

(** ** C56: which files matter *)
(** every file of [fs] is in [fs'] *)
Definition more_files (fs fs' : fsys) : Prop :=
  forall p i fe, fs_entry fs p = Some (i, fe) -> exists i', fs_entry fs' p = Some (i', fe).
(** the file with canonical path [c] may have another text; all the other files are the same *)
Definition only_differs (c : str) (fs fs' : fsys) : Prop :=
  forall p, canon fs p = canon fs' p /\
    (canon fs p <> Some c -> option_map snd (fs_entry fs p) = option_map snd (fs_entry fs' p)).

Lemma includes_transfer fs fs' (chain0 : list str) :
  (forall p full, canon fs p = Some full -> ~ In full chain0 -> canon fs' p = Some full /\
     forall i fe, fs_entry fs p = Some (i, fe) -> exists i', fs_entry fs' p = Some (i', fe)) ->
  forall chain file k p x v y, includes fs chain file k p x v y -> incl chain0 chain -> includes fs' chain file k p x v y.
Proof.
  intros T chain file k p x v y H. induction H as
    [chain file k p gl sh v sh' full C NI A S|chain file k p gl sh v sh' full i fe text sh0 sh1 inc C NI A En R Hi IH S FV S']; intros I.
  - destruct (T _ _ C) as [C' _]; [auto|]. eapply inc_again; eauto.
  - destruct (T _ _ C) as [C' E']; [auto|]. destruct (E' _ _ En) as (i' & En').
    eapply inc_first; eauto. intros k' p' x' w' y' Sn Hx. apply (IH k' p' x' w' y' Sn Hx). intros z Hz. right. auto.
Qed.
Lemma more_files_transfer fs fs' p full : more_files fs fs' -> canon fs p = Some full -> canon fs' p = Some full /\
  forall i fe, fs_entry fs p = Some (i, fe) -> exists i', fs_entry fs' p = Some (i', fe).
Proof.
  intros M C. split; [|apply M]. unfold canon in *. destruct (fs_entry fs p) as [[i fe]|] eqn:En; [|discriminate].
  destruct (M _ _ _ En) as (i' & ->). exact C.
Qed.

(** More files do not change a load that succeeds. *)
Theorem C56_more_files fs fs' g : more_files fs fs' ->
  (forall text o, from_str fs g text = Some (OOk o) -> from_str fs' g text = Some (OOk o)) /\
  (forall path o, canon fs path <> None -> from_file fs g path = Some (OOk o) -> from_file fs' g path = Some (OOk o)).
Proof.
  intros M. split.
  - intros text o. rewrite !C43_str. intros (d & inc & sh0 & y & R & H & S & E). exists d, inc, sh0, y.
    repeat split; try apply S; auto. intros k p x w z Sn Hx. eapply (includes_transfer fs fs' []); eauto; [|intros ? []].
    intros p' full C _. eapply more_files_transfer; eauto.
  - intros path o Cn E. destruct (from_file_doc fs g path o E) as (i & fe & text & d0 & En & Rd & _).
    destruct (fe_canon fe) as [c|] eqn:Fc; [|unfold canon in Cn; rewrite En in Cn; contradiction].
    destruct (M _ _ _ En) as (i' & En'). apply (C43_file fs' g path i' fe text c o En' Rd Fc).
    apply (C43_file fs g path i fe text c o En Rd Fc) in E. destruct E as (d & inc & sh0 & y & R & H & S & E).
    exists d, inc, sh0, y. repeat split; try apply S; auto. intros k p x w z Sn Hx. eapply (includes_transfer fs fs' []); eauto; [|intros ? []].
    intros p' full C _. eapply more_files_transfer; eauto.
Qed.

Lemma loads_elsewhere fs fs' c file g text o : only_differs c fs fs' -> loads fs [c] file g text o -> loads fs' [c] file g text o.
Proof.
  intros D (d & inc & sh0 & y & R & H & S & E).
  exists d, inc, sh0, y. repeat split; try apply S; auto. intros k p x w z Sn Hx. eapply (includes_transfer fs fs' [c]); eauto; [|intros ? K; exact K].
  intros p' full C NI. destruct (D p') as [C' K]. split; [congruence|]. intros j fj Ej. rewrite Ej in K. cbn in K.
  assert (X : canon fs p' <> Some c) by (rewrite C; intros Q; apply NI; left; congruence). specialize (K X).
  destruct (fs_entry fs' p') as [[j' fj']|]; cbn in K; [|discriminate]. exists j'. congruence.
Qed.
(** A file is not read a second time while it is loaded: of its contents only what they mean matters. *)
Theorem C56_edit fs fs' g path i fe text i' fe' text' c o : only_differs c fs fs' ->
  fs_entry fs path = Some (i, fe) -> fe_read fe = inl text -> fe_canon fe = Some c ->
  fs_entry fs' path = Some (i', fe') -> fe_read fe' = inl text' ->
  (forall d, r_doc d text -> r_doc d text') ->
  from_file fs g path = Some (OOk o) -> from_file fs' g path = Some (OOk o).
Proof.
  intros D En Rd Fc En' Rd' Same. assert (Fc' : fe_canon fe' = Some c).
  { destruct (D path) as [C _]. unfold canon in C. rewrite En, En' in C. congruence. }
  rewrite (C43_file fs g path i fe text c o En Rd Fc), (C43_file fs' g path i' fe' text' c o En' Rd' Fc').
  intros (d & inc & sh0 & y & R & H & S & E).
  exists d, inc, sh0, y. repeat split; try apply S; auto. intros k p x w z Sn Hx. eapply (includes_transfer fs fs' [c]); eauto; [|intros ? K; exact K].
  intros p' full C NI. destruct (D p') as [C' K]. split; [congruence|]. intros j fj Ej. rewrite Ej in K. cbn in K.
  assert (X : canon fs p' <> Some c) by (rewrite C; intros Q; apply NI; left; congruence). specialize (K X).
  destruct (fs_entry fs' p') as [[j' fj']|]; cbn in K; [|discriminate]. exists j'. congruence.
Qed.
Corollary C56_same_text fs fs' g path i fe text i' fe' c o : only_differs c fs fs' ->
  fs_entry fs path = Some (i, fe) -> fe_read fe = inl text -> fe_canon fe = Some c ->
  fs_entry fs' path = Some (i', fe') -> fe_read fe' = inl text ->
  from_file fs g path = Some (OOk o) <-> from_file fs' g path = Some (OOk o).
Proof.
  intros D En Rd Fc En' Rd'. assert (Fc' : fe_canon fe' = Some c).
  { destruct (D path) as [C _]. unfold canon in C. rewrite En, En' in C. congruence. }
  split; [eapply (C56_edit fs fs')|eapply (C56_edit fs' fs)]; eauto.
  intros p. destruct (D p) as [C K]. split; [congruence|]. intros X. symmetry. apply K. congruence.
Qed.

(** A load depends on the contents of the files it opens, and on no others: everything it does is the same, errors
    and the identity of containers included.  [D] are the files whose contents may be different. *)
Theorem C56_only_opened (D : str -> Prop) fs fs' g : same_except D fs fs' ->
  (forall text, (forall c, D c -> ~ In (Some c) (opens (sh_log (snd (parse_obj_str fs g text))))) ->
     parse_obj_str fs' g text = parse_obj_str fs g text) /\
  (forall path, (forall c, D c -> ~ In (Some c) (opens (sh_log (snd (parse_obj_file fs g path))))) ->
     parse_obj_file fs' g path = parse_obj_file fs g path).
Proof.
  assert (O : forall log, (forall c, D c -> ~ In (Some c) (opens log)) -> none_opened D log).
  { intros log H c Dc K. apply (H c Dc). apply in_flat_map. exists (EOpen (Some c)). split; [exact K|left; auto]. }
  intros S. split; intros x H.
  - eapply loc_parse_str; eauto.
  - eapply loc_parse_file; eauto.
Qed.
Corollary C56_only_opened_results (D : str -> Prop) fs fs' g : same_except D fs fs' ->
  (forall text, (forall c, D c -> ~ In (Some c) (opens (sh_log (snd (parse_obj_str fs g text))))) ->
     from_str fs' g text = from_str fs g text) /\
  (forall path, (forall c, D c -> ~ In (Some c) (opens (sh_log (snd (parse_obj_file fs g path))))) ->
     from_file fs' g path = from_file fs g path).
Proof.
  intros S. destruct (C56_only_opened D fs fs' g S) as [H1 H2]. unfold from_str, from_file. split; intros x H.
  - rewrite H1; auto.
  - rewrite H2; auto.
Qed.

(** ** C26 for files *)
(** In a file, at any place outside strings and comments, white space can be replaced by other white space. *)
Theorem C26_file fs fs' g path i fe i' fe' c a w1 w2 b o : only_differs c fs fs' ->
  fs_entry fs path = Some (i, fe) -> fe_read fe = inl (a ++ w1 ++ b) -> fe_canon fe = Some c ->
  fs_entry fs' path = Some (i', fe') -> fe_read fe' = inl (a ++ w2 ++ b) ->
  ws w1 -> w1 <> [] -> ws w2 -> w2 <> [] -> mode_after a = Code ->
  from_file fs g path = Some (OOk o) <-> from_file fs' g path = Some (OOk o).
Proof.
  intros D En Rd Fc En' Rd' W1 N1 W2 N2 M. assert (Fc' : fe_canon fe' = Some c).
  { destruct (D path) as [C _]. unfold canon in C. rewrite En, En' in C. congruence. }
  split; [eapply (C56_edit fs fs')|eapply (C56_edit fs' fs)]; eauto.
  - intros d. apply doc_splice; auto.
  - intros p. destruct (D p) as [C K]. split; [congruence|]. intros X. symmetry. apply K. congruence.
  - intros d. apply doc_splice; auto.
Qed.

(** ** C25, C27, C41 for files *)
Theorem C25_every_file fs g path text o : readable fs path text -> from_file fs g path = Some (OOk o) ->
  deepest Code 0 text <= 63.
Proof.
  intros Rd E. apply (C41_accepted_file_iff fs g path text o Rd) in E as (its & x & R & E).
  destruct (N.le_gt_cases (deepest Code 0 text) 63) as [H|H]; auto. exfalso.
  apply doc_scan in R as K. destruct K as (_ & _ & K).
  assert (D : deep_items its <= nest_doc its).
  { destruct R as (w & t & c & _ & _ & R & _). eapply (proj2 (proj2 (proj2 (proj2 deep_nest)))); eauto. }
  rewrite doc_too_deep in E by lia. discriminate.
Qed.
Theorem C41_file_brackets fs g path text o : readable fs path text -> from_file fs g path = Some (OOk o) ->
  open_brackets Code [] text = Some [] /\ (mode_after text = Code \/ mode_after text = Comment).
Proof. intros Rd E. apply (C41_accepted_file_iff fs g path text o Rd) in E as (its & x & R & E). apply doc_scan in R. tauto. Qed.
Theorem C27_every_file fs g path text o : readable fs path text -> from_file fs g path = Some (OOk o) ->
  map fst (obj_pairs o) = filter is_field_name (names_of text) /\
  NoDup (names_of text) /\ (obj_parent o <> None <-> In [c_caret] (names_of text)).
Proof.
  intros Rd E. apply (C41_accepted_file_iff fs g path text o Rd) in E as (its & x & R & E).
  destruct R as (w & t & c & -> & W & R & L). rewrite (names_items _ _ R _ _ W L). unfold ev_doc in E.
  apply ebind_some in E as (r & y & E & E'). assert (E0 := E). apply items_shape in E0 as (new & Ef & Nf).
  apply items_names in E as (H1 & _ & _ & _ & H2); [|constructor].
  apply fresh_ret in E'. first [injection E' as ->|subst o]. cbn [obj_pairs obj_parent]. rewrite H2, Ef. split; [exact Nf|].
  split; [auto|intuition congruence].
Qed.

(** ** C50 for files *)
(** A file that is a document is continued on a new line and the whole is accepted: then it was accepted before, and
    the fields it had are the first fields of the whole, with the same values. *)
Theorem C50_file fs fs' g path i fe i' fe' c items t1 t2 o : only_differs c fs fs' ->
  fs_entry fs path = Some (i, fe) -> fe_read fe = inl t1 -> fe_canon fe = Some c ->
  fs_entry fs' path = Some (i', fe') -> fe_read fe' = inl (t1 ++ c_nl :: t2) -> r_doc items t1 ->
  from_file fs' g path = Some (OOk o) ->
  exists o1 more, from_file fs g path = Some (OOk o1) /\ obj_pairs o = obj_pairs o1 ++ more /\
    (obj_parent o1 <> None -> obj_parent o = obj_parent o1) /\ exists items2, r_doc items2 t2.
Proof.
  intros D En Rd Fc En' Rd' R. assert (Fc' : fe_canon fe' = Some c).
  { destruct (D path) as [C _]. unfold canon in C. rewrite En, En' in C. congruence. }
  rewrite (C43_file fs' g path i' fe' _ c o En' Rd' Fc'). intros (d & inc & sh0 & y & R' & H & S & E).
  destruct (cat_doc _ _ _ _ R R') as (its2 & -> & R2). unfold ev_doc in E.
  apply ebind_some in E as ([fields par] & y0 & E1 & E2). rewrite items_app in E1.
  apply ebind_some in E1 as ([fields1 par1] & y1 & E0 & E1). cbn [fst snd] in E1.
  apply ev_items_extends in E1 as [(more & ->) P].
  apply ebind_some in E2 as (j & z & F & E2). injection E2 as <- <-. cbn [obj_pairs obj_parent fst snd].
  destruct y1 as [gl1 sh1].
  exists (MkObj (g_next (sh_g sh1)) fields1 par1), more. cbn [obj_pairs obj_parent]. split; [|split; [reflexivity|split; [exact P|eauto]]].
  apply (C43_file fs g path i fe _ c _ En Rd Fc). eexists items, inc, sh0, _. split; [exact R|]. split.
  - intros k p x w z' Sn Hx. eapply (includes_transfer fs' fs [c]); eauto; [|intros ? K; exact K].
    intros p' full C NI. destruct (D p') as [C' K]. split; [congruence|]. intros j' fj Ej. rewrite Ej in K. cbn in K.
    assert (X : canon fs p' <> Some c) by (rewrite C', C; intros Q; apply NI; left; congruence). specialize (K X).
    destruct (fs_entry fs p') as [[j'' fj']|]; cbn in K; [|discriminate]. exists j''. congruence.
  - split; [exact S|]. unfold ev_doc, ebind. rewrite E0. reflexivity.
Qed.
End P.

(** ** Concrete cases: [a] includes [b]; [u] is a file nobody includes. *)
Section Ex.
#[local] Instance ascii : Unicode := {| u_alpha := fun _ => false; u_debug := fun c => [c] |}.
Definition world (a b u : str) : fsys :=
  mkfs (fun p => match p with [97] => Some 0%nat | [98] => Some 1%nat | [117] => Some 2%nat | _ => None end)
       [mkfe (Some (lit "/a")) (inl a); mkfe (Some (lit "/b")) (inl b); mkfe (Some (lit "/u")) (inl u)]
       (fun _ => lit "no such file").
Definition text_a : str := lit "x: <""b""> y: [1 2]".
Definition text_a2 : str := lit "x: <""b"">  # new layout
 y: [1 2]".
Definition text_b : str := lit "z: 5".
Definition w1 : fsys := world text_a text_b (lit "u: 1").

Example C56_ex_loads : exists o, from_file w1 g0 (lit "a") = Some (OOk o) /\ map fst (obj_pairs o) = [lit "x"; lit "y"].
Proof. eexists. split; vm_compute; reflexivity. Qed.
(** more files *)
Example C56_ex_more : more_files (mkfs (fs_resolve w1) (firstn 2 (fs_files w1)) (fs_open_err w1)) w1 /\ exists o, from_file (mkfs (fs_resolve w1) (firstn 2 (fs_files w1)) (fs_open_err w1)) g0 (lit "a") = Some (OOk o).
Proof.
  split; [|eexists; vm_compute; reflexivity].
  intros p i fe. unfold fs_entry. cbn [fs_resolve fs_files w1 world firstn]. destruct (path_parent p); [|discriminate].
  destruct p as [|c [|? ?]]; try discriminate; [|destruct c as [|[?|[?|?|]|]]; try discriminate;
    repeat (match goal with |- context [match ?x with _ => _ end] => is_var x; destruct x end; try discriminate)].
  repeat (match goal with |- context [match ?x with _ => _ end] => is_var x; destruct x end; try discriminate);
    cbn [nth_error]; intros E; injection E as <- <-; eauto.
Qed.
(** another layout of a *)
Example C56_ex_differs : only_differs (lit "/a") w1 (world text_a2 text_b (lit "u: 1")).
Proof.
  intros p. unfold canon, fs_entry, w1. cbn [fs_resolve fs_files world]. destruct (path_parent p); [|split; auto].
  destruct (match p with [97] => Some 0%nat | [98] => Some 1%nat | [117] => Some 2%nat | _ => None end) as [[|[|[|?]]]|]; cbn; split; auto;
    try (destruct n; cbn; auto); try congruence.
Qed.
Example C26_ex_file : exists a b' w2, text_a = a ++ lit " " ++ b' /\ text_a2 = a ++ w2 ++ b' /\ ws (lit " ") /\ ws w2 /\ w2 <> [] /\ mode_after a = Code.
Proof.
  exists (lit "x: <""b"">"), (lit "y: [1 2]"), (lit "  # new layout
 "). split; [reflexivity|]. split; [reflexivity|]. split; [repeat constructor|]. split; [|split; [discriminate|reflexivity]].
  apply ws_char; [reflexivity|]. apply ws_char; [reflexivity|]. apply (ws_comment (lit " new layout") (lit " ")); repeat constructor; discriminate.
Qed.
(** the file u is not opened *)
Example C56_ex_local : same_except (fun c => c = lit "/u") w1 (world text_a text_b (lit "((((")) /\ opens (sh_log (snd (parse_obj_file w1 g0 (lit "a")))) = [Some (lit "/b"); Some (lit "/a")].
Proof.
  split; [|vm_compute; reflexivity]. split; [reflexivity|]. split; [reflexivity|]. repeat constructor.
  cbn. intros H. exfalso. apply (H _ eq_refl). reflexivity.
Qed.
(** it matters which files are opened *)
Example C56_ex_opened : from_file (world text_a (lit "z: 6") []) g0 (lit "a") <> from_file (world text_a text_b []) g0 (lit "a").
Proof. vm_compute. discriminate. Qed.
Example C25_ex_file : readable w1 (lit "a") text_a /\ deepest Code 0 text_a = 1 /\ names_of text_a = [lit "x"; lit "y"].
Proof. split; [|split; reflexivity]. eexists _, _. split; [vm_compute; reflexivity|]. split; [reflexivity|discriminate]. Qed.
(** a line is added to a *)
Example C50_ex_file : exists its o, r_doc its text_a /\ from_file (world (text_a ++ c_nl :: lit "n: x.z+1") text_b []) g0 (lit "a") = Some (OOk o) /\ map fst (obj_pairs o) = [lit "x"; lit "y"; lit "n"].
Proof.
  destruct C56_ex_loads as (o & E & _). assert (Rd : readable w1 (lit "a") text_a) by apply C25_ex_file.
  apply (C41_accepted_file_iff w1 g0 (lit "a") text_a o Rd) in E as (its & x & R & _).
  exists its. eexists. split; [exact R|]. split; vm_compute; reflexivity.
Qed.
End Ex.

Print Assumptions C56_more_files.
Print Assumptions C56_edit.
Print Assumptions C56_same_text.
Print Assumptions C56_only_opened.
Print Assumptions C56_only_opened_results.
Print Assumptions C26_file.
Print Assumptions C25_every_file.
Print Assumptions C27_every_file.
Print Assumptions C41_file_brackets.
Print Assumptions C50_file.
