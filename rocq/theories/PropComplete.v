(** * PropComplete: which texts are accepted, C41, and how they are read, C42.

    The grammar is the relation [r_doc] of Syntax.v (which document a text is); the meaning of a document is
    [ev_doc] of Syntax.v. *)
From Verif Require Import LangSpec PropLoad PropScope Complete Unique.
From Coq Require String.
Import String.StringSyntax.
Open Scope N_scope.

Section P.
Context `{U : Unicode}.

(** ** C41: exactly the texts of the grammar that have a meaning are accepted, with that meaning. *)
Theorem C41_accepted_iff fs g text o :
  from_str fs g text = Some (OOk o) <->
  exists items x, r_doc items text /\ ev_doc (include_meaning fs None) limit64 items ([], init_sh g) = Some (o, x).
Proof.
  split.
  - intros E. destruct (from_str_doc fs g text o E) as [its H]. apply (proj1 (str_ok fs g its text H o)) in E. destruct E as [x E]. exists its, x. auto.
  - intros (its & x & H & E). apply (str_ok fs g its text H). exists x. exact E.
Qed.
Theorem C41_rejected_iff fs g text :
  (exists e, from_str fs g text = Some (OErr e)) <->
  forall items, r_doc items text -> ev_doc (include_meaning fs None) limit64 items ([], init_sh g) = None.
Proof.
  split.
  - intros E its H. apply (str_err fs g its text H) in E. exact E.
  - intros H. destruct (C03_from_str_returns fs g text) as [[o|e] E]; [|eauto].
    apply C41_accepted_iff in E as (its & x & D & E). rewrite (H its D) in E. discriminate.
Qed.
(** In particular a text outside the grammar is an error. *)
Corollary C41_not_in_grammar fs g text : (forall items, ~ r_doc items text) -> exists e, from_str fs g text = Some (OErr e).
Proof. intros H. apply C41_rejected_iff. intros its D. destruct (H its D). Qed.

(** The same for files ... *)
Theorem C41_accepted_file_iff fs g path text o : readable fs path text ->
  from_file fs g path = Some (OOk o) <->
  exists items x, r_doc items text /\
    ev_doc (include_meaning fs (Some path)) limit64 items ([], file_sh fs g path) = Some (o, x).
Proof.
  intros R. split.
  - intros E. destruct (from_file_doc fs g path o E) as (i & fe & text' & its & E1 & E2 & H).
    assert (text' = text) as -> by (destruct R as (i' & fe' & E1' & E2' & _); congruence).
    apply (proj1 (file_ok fs g path its text R H o)) in E. destruct E as [x E]. exists its, x. auto.
  - intros (its & x & H & E). apply (file_ok fs g path its text R H). exists x. exact E.
Qed.
(** ... and for included files: an include that succeeds for the first time in a load finds a text of its kind
    ([kind_text], Complete.v): for Obj a document, for Arr and Tup a list of values; for Str any text. *)
Theorem C41_included fs file k p globals sh v globals' sh' : wfvals sh ->
  include_meaning fs file k p (globals, sh) = Some (v, (globals', sh')) ->
  let path := match file with Some f => beside f p | None => p end in
  exists full, canon fs path = Some full /\
    (assoc full (sh_vals sh) = Some v \/
     exists i fe text, fs_entry fs path = Some (i, fe) /\ fe_read fe = inl text /\ kind_text k text).
Proof.
  intros W E path. unfold include_meaning, inc_of, finish_include, bind, getfile, get_sh, put_sh, run_include, fail, panic, ret, log_ev in E.
  unfold assert_ in E. cbn [s_file] in E. destruct (has_parent file); [unfold ret in E|discriminate].
  cbn [fst snd s_file s_sh s_globals set_sh sh_vals sh_open sh_log sh_g] in E. fold path in E.
  destruct (negb (is_file fs path)); [discriminate|].
  destruct (canon fs path) as [full|] eqn:Ec; [|discriminate]. exists full. split; auto.
  destruct file as [f|].
  - destruct (canon fs f) as [ff|]; [|discriminate].
    cbn [fst snd s_file s_sh s_globals set_sh sh_vals sh_open sh_log sh_g] in E.
    destruct (mem_str full _); [discriminate|].
    destruct (assoc full (sh_vals sh)) as [w|] eqn:A.
    + left. inversion E; auto.
    + right. cbn [fst snd s_file s_sh s_globals set_sh sh_vals sh_open sh_log sh_g] in E.
      match type of E with context [load_file fs ?n k path ?x] => destruct (load_file fs n k path x) as [[w|e| |] sh1] eqn:L end;
        try discriminate. eapply load_file_text; [|exact L]. exact W.
  - cbn [fst snd s_file s_sh s_globals set_sh sh_vals sh_open sh_log sh_g] in E.
    destruct (mem_str full _); [discriminate|].
    destruct (assoc full (sh_vals sh)) as [w|] eqn:A.
    + left. inversion E; auto.
    + right. cbn [fst snd s_file s_sh s_globals set_sh sh_vals sh_open sh_log sh_g] in E.
      match type of E with context [load_file fs ?n k path ?x] => destruct (load_file fs n k path x) as [[w|e| |] sh1] eqn:L end;
        try discriminate. eapply load_file_text; [|exact L]. exact W.
Qed.

(** ** C42: one reading. *)
Theorem C42_one_reading d1 d2 text : r_doc d1 text -> r_doc d2 text -> d1 = d2.
Proof. apply doc_unique. Qed.
Theorem C42_one_reading_of_lists l1 l2 text : r_list l1 text -> r_list l2 text -> l1 = l2.
Proof. apply list_unique. Qed.
Theorem C42_one_reading_of_values e1 e2 text : r_expr e1 text -> r_expr e2 text -> e1 = e2.
Proof. apply expr_unique. Qed.
(** An accepted text is exactly one document. *)
Theorem C42_accepted fs g text o : from_str fs g text = Some (OOk o) ->
  exists items, r_doc items text /\ forall items', r_doc items' text -> items' = items.
Proof.
  intros E. destruct (from_str_doc fs g text o E) as [its H]. exists its. split; auto.
  intros its' H'. eapply doc_unique; eauto.
Qed.

(** ** C20 for every accepted text: all its names are defined where they are used. *)
Theorem C20_accepted fs g text o : from_str fs g text = Some (OOk o) ->
  exists items, r_doc items text /\ scoped_items [] items.
Proof.
  intros E. destruct (from_str_doc fs g text o E) as [its H]. exists its. split; auto.
  eapply C20_names_in_scope; eauto.
Qed.
End P.

(** ** Examples *)
Section Ex.
#[local] Instance ascii : Unicode := {| u_alpha := fun _ => false; u_debug := fun c => [c] |}.
Definition ex_good : str := lit "# numbers" ++ [10] ++ lit "a: 1_000+.5 b: {c: [1.5 -2.]} d: b.c.0 #".
Example C41_ex_accepted : exists o, from_str no_fs g0 ex_good = Some (OOk o) /\ obj_len o = 3.
Proof. eexists. split; vm_compute; reflexivity. Qed.
Example C42_ex : exists items, r_doc items ex_good /\ forall items', r_doc items' ex_good -> items' = items.
Proof. destruct C41_ex_accepted as (o & E & _). exact (C42_accepted _ _ _ _ E). Qed.
(** Texts outside the grammar, whatever precedes a misplaced closing bracket: white space, then a bracket. *)
Example C41_ex_rejected w c r : ws w -> is_end_delimiter c = true -> forall items, ~ r_doc items (w ++ c :: r).
Proof.
  intros W Hc items (w' & t & c' & E & W' & H & L).
  assert (S : solid (c :: r)) by (left; exists c, r; split; auto; apply delim_ws; auto).
  destruct H as [|f e its w1 t w2 t2 Hf _ _ _ _ _].
  - apply (ws_uniq _ W _ _ _ W') in E; auto; [|right; auto]. cbn in E. subst c'.
    destruct L as [L|(b & L & _)]; inversion L; subst. discriminate.
  - rewrite <- app_assoc in E. apply (ws_uniq _ W _ _ _ W') in E; auto; [|apply item_solid; auto].
    destruct (item_head f Hf) as (c1 & r1 & -> & _ & D). cbn in E. inversion E; subst. congruence.
Qed.
(** A text of the grammar without a meaning: [b] is not defined. *)
Example C41_ex_no_meaning : exists items, r_doc items (lit "a: b") /\
  exists e, from_str no_fs g0 (lit "a: b") = Some (OErr e).
Proof.
  exists [(lit "a", Ex (AVar false (lit "b")) [])]. split; [|eexists; vm_compute; reflexivity].
  exists [], (lit "a: b"), []. split; [reflexivity|]. split; [constructor|]. split; [|left; reflexivity].
  apply (r_icons (lit "a") (Ex (AVar false (lit "b")) []) [] [32] (lit "b" ++ []) [] []).
  - exists 97, []. repeat split; auto. left. left. reflexivity.
  - constructor; [reflexivity|constructor].
  - constructor; [|constructor]. apply (r_var false (lit "b")). exists 98, []. repeat split; auto. left. reflexivity.
  - constructor.
  - auto.
  - constructor.
Qed.
End Ex.

Print Assumptions C41_accepted_iff.
Print Assumptions C41_rejected_iff.
Print Assumptions C41_not_in_grammar.
Print Assumptions C41_accepted_file_iff.
Print Assumptions C41_included.
Print Assumptions C42_one_reading.
Print Assumptions C42_one_reading_of_lists.
Print Assumptions C42_one_reading_of_values.
Print Assumptions C42_accepted.
Print Assumptions C20_accepted.
