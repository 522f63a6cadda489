(** * PropAlpha: the name of a global means nothing (C57). *)
From Verif Require Export Alpha PropFiles.
From Coq Require String.
Import String.StringSyntax.
Open Scope N_scope.

Section P.
Context `{U : Unicode}.
Lemma rinc_includes fs x y chain file (inc : inc_ty -> str -> ES value) :
  (forall k p s w z, sane (snd s) -> inc k p s = Some (w, z) -> includes fs chain file k p s w z) ->
  forall k p s w z, sane (snd s) -> swapped_inc x y inc k p s = Some (w, z) -> includes fs chain file k p s w z.
Proof.
  intros H k p [gl sh] w z Sn E. unfold swapped_inc in E. destruct (inc k p (rst x y (gl, sh))) as [[v q]|] eqn:I; [|discriminate].
  cbn [rres] in E. injection E as <- <-. apply H in I; [|exact Sn]. unfold rst in I. cbn [fst snd] in I.
  assert (G : forall a, rgl x y (rgl x y a) = a) by (intros a; exact (f_equal fst (rst_twice x y (a, sh)))).
  inversion I; subst; unfold rst; cbn [fst snd]; rewrite G.
  - eapply inc_again; eauto.
  - eapply inc_first; eauto.
Qed.
Lemma loads_swap fs chain file g x y text o : global_name x -> global_name y ->
  loads fs chain file g text o -> loads fs chain file g (swap_globals x y text) o.
Proof.
  intros Hx Hy (d & inc & sh0 & q & R & H & S & E). exists (ri x y d), (swapped_inc x y inc), sh0, (rst x y q).
  split; [apply ren_doc; auto|]. split; [apply rinc_includes; auto|]. split; [exact S|].
  pose proof (al_doc x y inc limit64 d ([], sh0)) as A. rewrite E in A. exact A.
Qed.
Lemma loads_swap_iff fs chain file g x y text o : global_name x -> global_name y ->
  loads fs chain file g (swap_globals x y text) o <-> loads fs chain file g text o.
Proof.
  intros Hx Hy. split; [|apply loads_swap; auto]. intros H. apply (loads_swap fs chain file g x y) in H; auto.
  rewrite swap_globals_twice in H; auto.
Qed.

(** If the names of two globals are exchanged everywhere in the code of a text, the same Obj is loaded, down to the
    identity of its containers, or both texts are rejected. *)
Theorem C57_str fs g x y text : global_name x -> global_name y ->
  (forall o, from_str fs g (swap_globals x y text) = Some (OOk o) <-> from_str fs g text = Some (OOk o)) /\
  ((exists e, from_str fs g (swap_globals x y text) = Some (OErr e)) <-> exists e, from_str fs g text = Some (OErr e)).
Proof.
  intros Hx Hy. assert (K : forall o, from_str fs g (swap_globals x y text) = Some (OOk o) <-> from_str fs g text = Some (OOk o)).
  { intros o. rewrite !C43_str. apply loads_swap_iff; auto. }
  split; [exact K|].
  destruct (C03_from_str_returns fs g text) as [[o|e] E], (C03_from_str_returns fs g (swap_globals x y text)) as [[o'|e'] E'].
  - rewrite E, E'. split; intros (e & X); discriminate.
  - apply K in E. congruence.
  - apply K in E'. congruence.
  - split; eauto.
Qed.
(** In particular a global may be given a name that does not occur, and every name is as good as another. *)
Theorem C57_file fs fs' g x y path i fe text i' fe' c o : global_name x -> global_name y -> only_differs c fs fs' ->
  fs_entry fs path = Some (i, fe) -> fe_read fe = inl text -> fe_canon fe = Some c ->
  fs_entry fs' path = Some (i', fe') -> fe_read fe' = inl (swap_globals x y text) ->
  from_file fs' g path = Some (OOk o) <-> from_file fs g path = Some (OOk o).
Proof.
  intros Hx Hy D En Rd Fc En' Rd'. assert (Fc' : fe_canon fe' = Some c).
  { destruct (D path) as [C _]. unfold canon in C. rewrite En, En' in C. congruence. }
  rewrite (C43_file fs g path i fe text c o En Rd Fc), (C43_file fs' g path i' fe' _ c o En' Rd' Fc'), loads_swap_iff by auto.
  assert (D' : only_differs c fs' fs).
  { intros p. destruct (D p) as [C K]. split; [congruence|]. intros X. symmetry. apply K. congruence. }
  split; apply loads_elsewhere; auto.
Qed.
End P.

(** ** Concrete cases *)
Section Ex.
#[local] Instance ascii : Unicode := {| u_alpha := fun _ => false; u_debug := fun c => [c] |}.
Definition alpha_text : str := lit "@a: [1 2] # about @a
x: ""@a"" y: @a.0+@bb.q".
Lemma name_of_ascii c s : In c (lit "abcxyz") -> Forall (fun d => In d (lit "abcxyz0_")) s -> global_name (c :: s).
Proof.
  assert (L : forall d, In d (lit "abcxyz") -> letter d) by (intros d Hd; left; cbn in Hd; repeat destruct Hd as [<-|Hd]; try reflexivity; destruct Hd).
  intros H F. exists c, s. split; [reflexivity|]. split; [apply L; auto|]. eapply Forall_impl; [|exact F].
  intros d Hd. cbn in Hd. repeat (destruct Hd as [<-|Hd]; [first [left; left; reflexivity|left; right; reflexivity|right; reflexivity]|]). destruct Hd.
Qed.
Example C57_ex_names : global_name (lit "a") /\ global_name (lit "bb").
Proof. split; apply name_of_ascii; cbn; intuition; repeat constructor; cbn; auto. Qed.
(** Only names in the code change. *)
Example C57_ex_swap : swap_globals (lit "a") (lit "bb") alpha_text = lit "@bb: [1 2] # about @a
x: ""@a"" y: @bb.0+@a.q".
Proof. reflexivity. Qed.
Definition alpha_good : str := lit "@a: [1 2] x: @a y: @a.1 @bb: {z: @a} w: @bb.z.0".
Example C57_ex : exists o, from_str no_fs g0 alpha_good = Some (OOk o) /\ map fst (obj_pairs o) = [lit "x"; lit "y"; lit "w"] /\
  swap_globals (lit "a") (lit "bb") alpha_good = lit "@bb: [1 2] x: @bb y: @bb.1 @a: {z: @bb} w: @a.z.0" /\
  from_str no_fs g0 (lit "@bb: [1 2] x: @bb y: @bb.1 @a: {z: @bb} w: @a.z.0") = Some (OOk o).
Proof. eexists. split; [vm_compute; reflexivity|]. split; [reflexivity|]. split; [reflexivity|]. vm_compute. reflexivity. Qed.
(** Renaming a global to a name in use is not an exchange, and can change the meaning. *)
Example C57_ex_capture : exists e, from_str no_fs g0 (lit "@a: [1 2] x: @a y: @a.1 @a: {z: @a} w: @a.z.0") = Some (OErr e).
Proof. eexists. vm_compute. reflexivity. Qed.
End Ex.

Print Assumptions C57_str.
Print Assumptions C57_file.
