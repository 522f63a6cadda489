(** * PropInclude: C43, loading with includes means exactly what IncSem.v says. *)
From Verif Require Export IncSem IncSemProofs PropLoad PropComplete.
From Coq Require String.
Import String.StringSyntax.
Open Scope N_scope.

Section P.
Context `{U : Unicode}.

(** A text: it is a document, and each of its includes means its file. *)
Theorem C43_str fs g text o : from_str fs g text = Some (OOk o) <-> loads fs [] None g text o.
Proof.
  assert (HS : SI fs (fun _ => True) [] [] (init_sh g)) by (split; [reflexivity|split; [apply LI_init|exact I]]).
  assert (Hc : ctx fs False None [] []) by (left; auto).
  split.
  - intros E. destruct (from_str_doc fs g text o E) as [d Hd]. apply (str_ok fs g d text Hd) in E.
    destruct (proj1 (loads_meaning fs None [] (init_sh g) d o (octx_none fs) Hc (room_init fs) HS (Forall_nil _) _ (same_refl (init_sh g))) E)
      as (inc & y & Hi & Ev).
    exists d, inc, (init_sh g), y. split; auto. split; auto. split; auto. apply same_refl.
  - intros (d & inc & sh0 & y & Hd & Hi & Sm & Ev). apply (str_ok fs g d text Hd).
    apply (proj2 (loads_meaning fs None [] (init_sh g) d o (octx_none fs) Hc (room_init fs) HS (Forall_nil _) _ Sm)). eauto.
Qed.

(** A file: the same, and it cannot include itself. *)
Theorem C43_file fs g path i fe text c o :
  fs_entry fs path = Some (i, fe) -> fe_read fe = inl text -> fe_canon fe = Some c ->
  from_file fs g path = Some (OOk o) <-> loads fs [c] (Some path) g text o.
Proof.
  intros He Hr Ec. assert (Hcan : canon fs path = Some c) by (unfold canon; rewrite He; exact Ec).
  assert (Rd : readable fs path text) by (exists i, fe; repeat split; auto; congruence).
  assert (Oc : octx fs (Some path) [] [c]) by (apply inc_ctx; auto; constructor).
  assert (Hc : ctx fs False (Some path) [] [c]) by (right; right; eauto).
  assert (Rm : room fs [c] (inc_fuel fs)).
  { split; [repeat constructor; auto|]. split; [|unfold inc_fuel; cbn; lia]. intros x [<-|[]]. eapply canon_in; eauto. }
  assert (HS : SI fs (fun _ => True) [] [c] (file_sh fs g path)).
  { unfold file_sh. rewrite Hcan. split; [reflexivity|]. split; [|exact I]. apply LI_open; auto. apply LI_init. }
  assert (Sm0 : same_state (file_sh fs g path) (init_sh g)) by (split; reflexivity).
  assert (W : wfvals (file_sh fs g path)) by constructor.
  split.
  - intros E. destruct (from_file_doc fs g path o E) as (i' & fe' & text' & d & H1 & H2 & Hd).
    assert (text' = text) by congruence. subst text'. apply (file_ok fs g path d text Rd Hd) in E.
    destruct (proj1 (loads_meaning fs (Some path) [c] (file_sh fs g path) d o Oc Hc Rm HS W _ Sm0) E) as (inc & y & Hi & Ev).
    exists d, inc, (file_sh fs g path), y. split; [exact Hd|]. split; [exact Hi|]. split; [apply same_sym; exact Sm0|exact Ev].
  - intros (d & inc & sh0 & y & Hd & Hi & Sm & Ev). apply (file_ok fs g path d text Rd Hd).
    apply (proj2 (loads_meaning fs (Some path) [c] (file_sh fs g path) d o Oc Hc Rm HS W _ (same_trans _ _ _ Sm0 Sm))). eauto.
Qed.

(** So the relation is a function: a text has at most one value in a given process. *)
Corollary C43_one_value fs g text o o' : loads fs [] None g text o -> loads fs [] None g text o' -> o = o'.
Proof. intros H1 H2. apply C43_str in H1, H2. congruence. Qed.

(** Every error is the lack of a value. *)
Corollary C43_error fs g text : (exists e, from_str fs g text = Some (OErr e)) <-> forall o, ~ loads fs [] None g text o.
Proof.
  split.
  - intros [e E] o H. apply C43_str in H. congruence.
  - intros H. destruct (str_total fs g text) as (r & sh & E & T). unfold from_str. rewrite E.
    destruct T as [[o ->]|[e ->]]; [|cbn; eauto]. exfalso. apply (H o), C43_str. unfold from_str. rewrite E. reflexivity.
Qed.

(** ** Consequences read off the relation *)

(** An include of a file being loaded, or of a path without a file, has no value. *)
Theorem C43_not_itself fs chain file k p x v y c :
  canon fs (target file p) = Some c -> In c chain -> ~ includes fs chain file k p x v y.
Proof. intros E H K. inversion K; subst; congruence. Qed.
Theorem C43_no_file fs chain file k p x v y :
  canon fs (target file p) = None -> ~ includes fs chain file k p x v y.
Proof. intros E K. inversion K; subst; congruence. Qed.
(** An include neither sees nor changes the globals of the file around it. *)
Theorem C43_globals fs chain file k p x v y gl :
  includes fs chain file k p x v y -> fst y = fst x /\ includes fs chain file k p (gl, snd x) v (gl, snd y).
Proof.
  intros K. inversion K; subst; cbn [fst snd]; (split; [reflexivity|]).
  - eapply inc_again; eauto.
  - eapply inc_first; eauto.
Qed.
End P.

(** ** Example: a file that includes a file twice and whose text is loaded as a string. *)
Section Ex.
#[local] Instance ascii : Unicode := {| u_alpha := fun _ => false; u_debug := fun c => [c] |}.
Example C43_ex : exists o c fe text, fs_entry ex_fs (lit "a") = Some fe /\ fe_read (snd fe) = inl text /\ fe_canon (snd fe) = Some c /\
  loads ex_fs [c] (Some (lit "a")) g0 text o /\ obj_len o = 2.
Proof.
  destruct (from_file ex_fs g0 (lit "a")) as [[o|e]|] eqn:E; try (vm_compute in E; discriminate).
  destruct (fs_entry ex_fs (lit "a")) as [[i fe]|] eqn:F; [|vm_compute in F; discriminate].
  destruct (fe_read fe) as [text|] eqn:R; [|vm_compute in F; injection F as <- <-; discriminate].
  destruct (fe_canon fe) as [c|] eqn:C; [|vm_compute in F; injection F as <- <-; discriminate].
  exists o, c, (i, fe), text. split; [reflexivity|]. split; [exact R|]. split; [exact C|]. split.
  - apply (C43_file ex_fs g0 (lit "a") i fe text c o F R C). exact E.
  - vm_compute in E. injection E as <-. reflexivity.
Qed.
End Ex.

Print Assumptions C43_str.
Print Assumptions C43_file.
Print Assumptions C43_one_value.
Print Assumptions C43_error.
Print Assumptions C43_not_itself.
Print Assumptions C43_no_file.
Print Assumptions C43_globals.
