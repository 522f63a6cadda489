(** * PropConstants: constants may be written in any way (C76). *)
From Verif Require Export ConstEval PropAfresh.
From Verif Require Import AfreshConv Complete PropRefactor Render PropRound PropHistory PropNames.
From Coq Require String.
Import String.StringSyntax.
Open Scope N_scope.

Section P.
Context `{U : Unicode}.
Lemma same_items_sym its its' : same_items its its' -> same_items its' its. Proof. apply rst_sym. Qed.
Lemma same_archive_sym ar ar' : same_archive ar ar' -> same_archive ar' ar.
Proof. intros H full. specialize (H full). destruct (ar full), (ar' full); auto. apply rst_sym. exact H. Qed.
Lemma same_becomes its its' : same_items its its' -> becomes eq its its'.
Proof. intros S fs file sh o x _ _ M. exists o, x. split; [|reflexivity]. unfold meaning in *. rewrite <- (same_doc _ limit64 its its' S). exact M. Qed.

(** C76.  Write the constants of a text in another way, or compute operations on constants in advance: exactly the same Obj
    is loaded, down to the identity of its containers; [text] and [text'] are any texts of the two documents. *)
Theorem C76_str fs g items items' text text' o : r_doc items text -> r_doc items' text' -> same_items items items' ->
  from_str fs g text = Some (OOk o) <-> from_str fs g text' = Some (OOk o).
Proof.
  intros R R' S. rewrite (str_ok fs g items text R o), (str_ok fs g items' text' R' o). unfold str_meaning, meaning.
  rewrite (same_doc _ limit64 items items' S). reflexivity.
Qed.
Theorem C76_error fs g items items' text text' : r_doc items text -> r_doc items' text' -> same_items items items' ->
  (exists e, from_str fs g text = Some (OErr e)) <-> (exists e, from_str fs g text' = Some (OErr e)).
Proof.
  intros R R' S. pose proof (fun o => C76_str fs g items items' text text' o R R' S) as K.
  destruct (C03_from_str_returns fs g text) as [[o|e] E], (C03_from_str_returns fs g text') as [[o'|e'] E'].
  - rewrite E, E'. split; intros (e & X); discriminate.
  - apply K in E. congruence.
  - apply K in E'. congruence.
  - split; intros _; eauto.
Qed.
Theorem C76_file fs fs' g path i fe i' fe' c items items' text text' o : g_ok g -> only_differs c fs fs' ->
  fs_entry fs path = Some (i, fe) -> fe_read fe = inl text -> fe_canon fe = Some c ->
  fs_entry fs' path = Some (i', fe') -> fe_read fe' = inl text' ->
  r_doc items text -> r_doc items' text' -> same_items items items' ->
  from_file fs g path = Some (OOk o) -> from_file fs' g path = Some (OOk o).
Proof.
  intros G D En Rd Fc En' Rd' R R' S E.
  destruct (becomes_file eq items items' fs fs' g path i fe i' fe' c text text' o G (same_becomes _ _ S) D En Rd Fc En' Rd' R R' E) as (o' & E' & <-). exact E'.
Qed.

(** In all files of a project. *)
Lemma afresh_rewritten fs fs' ar ar' : (forall p, canon fs' p = canon fs p) -> same_archive ar ar' ->
  forall n file k p x r, afresh fs ar n file k p x = Some r -> afresh fs' ar' n file k p x = Some r.
Proof.
  intros Hc Ha. induction n as [|n IH]; intros file k p x r E; [discriminate|]. cbn [afresh] in *. rewrite Hc.
  destruct (canon fs (target file p)) as [full|]; [|discriminate]. specialize (Ha full).
  destruct (ar full) as [c|]; [|discriminate]. destruct (ar' full) as [c'|]; [|contradiction]. rewrite <- (contents_kind _ _ Ha).
  destruct (kind_eqb k (kind_in c)); [|discriminate]. unfold apart in *. rewrite <- (same_ev _ _ _ Ha).
  destruct (ev_contents (afresh fs ar n (Some (target file p))) c ([], snd x)) as [z|] eqn:Ec; [|discriminate].
  rewrite (contents_more _ (afresh fs' ar' n (Some (target file p))) c _ z (IH _) Ec). exact E.
Qed.
Lemma doc_rewritten fs fs' ar ar' n items items' x r : (forall p, canon fs' p = canon fs p) -> same_archive ar ar' -> same_items items items' ->
  ev_doc (afresh fs ar n None) limit64 items x = Some r -> ev_doc (afresh fs' ar' n None) limit64 items' x = Some r.
Proof.
  intros Hc Ha S E. rewrite <- (same_doc _ limit64 items items' S).
  assert (M : forall z, ev_contents (afresh fs ar n None) (CObj items) x = Some z -> ev_contents (afresh fs' ar' n None) (CObj items) x = Some z).
  { intros z. apply contents_more. intros k p y w. apply afresh_rewritten; auto. }
  cbn [ev_contents] in M. unfold ebind in M. rewrite E in M. destruct r as [o y]. specialize (M _ eq_refl).
  destruct (ev_doc (afresh fs' ar' n None) limit64 items x) as [[o' y']|]; [|discriminate]. injection M as <- <-. reflexivity.
Qed.
Theorem C76_project_str fs fs' ar ar' g items items' text text' d : coherent fs -> describes fs ar -> describes fs' ar' ->
  (forall p, canon fs' p = canon fs p) -> same_archive ar ar' -> g_ok g ->
  r_doc items text -> r_doc items' text' -> same_items items items' ->
  (exists o, from_str fs g text = Some (OOk o) /\ respects ar (sh_log (snd (parse_obj_str fs g text))) /\ alike d o) <->
  (exists o, from_str fs' g text' = Some (OOk o) /\ respects ar' (sh_log (snd (parse_obj_str fs' g text'))) /\ alike d o).
Proof.
  intros Coh Des Des' Hc Ha G R R' S. assert (Coh' : coherent fs') by (intros p p' f q; rewrite !Hc; apply Coh).
  rewrite (C67_str_iff fs ar g items text d Coh Des G R), (C67_str_iff fs' ar' g items' text' d Coh' Des' G R').
  split; intros (n & o & x & E & Al); exists n, o, x; (split; [|exact Al]).
  - exact (doc_rewritten fs fs' ar ar' n items items' _ _ Hc Ha S E).
  - exact (doc_rewritten fs' fs ar' ar n items' items _ _ (fun p => eq_sym (Hc p)) (same_archive_sym _ _ Ha) (same_items_sym _ _ S) E).
Qed.
Theorem C76_project_file fs fs' ar ar' g path full items items' d : coherent fs -> describes fs ar -> describes fs' ar' ->
  (forall p, canon fs' p = canon fs p) -> same_archive ar ar' -> g_ok g ->
  canon fs path = Some full -> ar full = Some (CObj items) -> ar' full = Some (CObj items') ->
  (exists o, from_file fs g path = Some (OOk o) /\ respects ar (sh_log (snd (parse_obj_file fs g path))) /\ alike d o) <->
  (exists o, from_file fs' g path = Some (OOk o) /\ respects ar' (sh_log (snd (parse_obj_file fs' g path))) /\ alike d o).
Proof.
  intros Coh Des Des' Hc Ha G Ef Ea Ea'. assert (Coh' : coherent fs') by (intros p p' f q; rewrite !Hc; apply Coh).
  assert (Ef' : canon fs' path = Some full) by (rewrite Hc; exact Ef).
  rewrite (C67_file_iff fs ar g path full items d Coh Des G Ef Ea), (C67_file_iff fs' ar' g path full items' d Coh' Des' G Ef' Ea').
  split; intros (n & o & x & E & Al); exists n, o, x; (split; [|exact Al]).
  - exact (afresh_rewritten fs fs' ar ar' Hc Ha n _ _ _ _ _ E).
  - exact (afresh_rewritten fs' fs ar' ar (fun p => eq_sym (Hc p)) (same_archive_sym _ _ Ha) n _ _ _ _ _ E).
Qed.
End P.

(** ** Concrete cases *)
Section Ex.
#[local] Instance ascii : Unicode := {| u_alpha := fun _ => false; u_debug := fun c => [c] |}.
Definition num (w : str) : atom := ANum w.
Definition str_of (cs : list schar) : atom := AStr cs.
(** a: 1_000   b: "x" + "y"   c: [2 * 3 + 1.50 a]   d: a + 2 * 4 - 1   e: {f: - -0.50}   i: <"b"> *)
Definition long : list (str * expr) :=
  [ (lit "a", Ex (num (lit "1_000")) []); (lit "b", Ex (str_of [SPlain 120]) [(BPlus, str_of [SPlain 121])]);
    (lit "c", Ex (AArr [Ex (num (lit "2")) [(BMult, num (lit "3")); (BPlus, num (lit "1.50"))]]) []);
    (lit "d", Ex (AVar false (lit "a")) [(BPlus, num (lit "2")); (BMult, num (lit "4")); (BMinus, num (lit "1"))]);
    (lit "e", Ex (AObj [(lit "f", Ex (AUn UMinus (AUn UMinus (num (lit "0.50")))) [])]) []); (lit "i", inc_obj 98) ].
Definition short : list (str * expr) :=
  [ (lit "a", Ex (num (lit "1000")) []); (lit "b", Ex (str_of [SPlain 120; SPlain 121]) []); (lit "c", Ex (AArr [Ex (num (lit "7.5")) []]) []);
    (lit "d", Ex (AVar false (lit "a")) [(BPlus, num (lit "8")); (BMinus, num (lit "1"))]);
    (lit "e", Ex (AObj [(lit "f", Ex (num (lit ".5")) [])]) []); (lit "i", inc_obj 98) ].
Lemma long_short : same_items long short.
Proof.
  unfold long, short.
  apply rst_trans with ((lit "a", Ex (num (lit "1000")) []) :: tl long).
  { apply rst_step. apply (w_item []). apply w_first. eapply w_const; reflexivity. }
  apply rst_trans with ((lit "a", Ex (num (lit "1000")) []) :: (lit "b", Ex (str_of [SPlain 120; SPlain 121]) []) :: tl (tl long)).
  { apply rst_step. apply (w_item [_]). apply w_sum; [reflexivity| |exact I]. eexists _, _, _. repeat split; reflexivity. }
  apply rst_trans with ((lit "a", Ex (num (lit "1000")) []) :: (lit "b", Ex (str_of [SPlain 120; SPlain 121]) []) ::
    (lit "c", Ex (AArr [Ex (num (lit "6")) [(BPlus, num (lit "1.50"))]]) []) :: tl (tl (tl long))).
  { apply rst_step. apply (w_item [_; _]). apply w_first. apply (w_arr []). apply w_product; [reflexivity|]. eexists _, _, _. repeat split; reflexivity. }
  apply rst_trans with ((lit "a", Ex (num (lit "1000")) []) :: (lit "b", Ex (str_of [SPlain 120; SPlain 121]) []) ::
    (lit "c", Ex (AArr [Ex (num (lit "7.5")) []]) []) :: tl (tl (tl long))).
  { apply rst_step. apply (w_item [_; _]). apply w_first. apply (w_arr []). apply w_sum; [reflexivity| |exact I]. eexists _, _, _. repeat split; reflexivity. }
  apply rst_trans with ((lit "a", Ex (num (lit "1000")) []) :: (lit "b", Ex (str_of [SPlain 120; SPlain 121]) []) ::
    (lit "c", Ex (AArr [Ex (num (lit "7.5")) []]) []) :: (lit "d", Ex (AVar false (lit "a")) [(BPlus, num (lit "8")); (BMinus, num (lit "1"))]) :: tl (tl (tl (tl long)))).
  { apply rst_step. apply (w_item [_; _; _]). apply (w_product_in _ []); [reflexivity|reflexivity|]. eexists _, _, _. repeat split; reflexivity. }
  apply rst_step. apply (w_item [_; _; _; _]). apply w_first. apply (w_obj []). apply w_first. eapply w_const; reflexivity.
Qed.
Example C76_ex : exists o, r_doc long (show_items long) /\ r_doc short (show_items short) /\ same_items long short /\ show_items long <> show_items short /\
  from_str proj g0 (show_items long) = Some (OOk o) /\ from_str proj g0 (show_items short) = Some (OOk o) /\ obj_len o = 6.
Proof.
  eexists. split; [apply show_doc; reflexivity|]. split; [apply show_doc; reflexivity|]. split; [exact long_short|]. split; [vm_compute; discriminate|].
  split; [vm_compute; reflexivity|]. split; [vm_compute; reflexivity|]. reflexivity.
Qed.
(** An escape and the character itself; a sign. *)
Example C76_ex_escape : rewrite_atom (AStr [SEsc 116]) (AStr [SPlain 9]) /\ rewrite_atom (AUn UMinus (num (lit "00.0"))) (num (lit "0.")).
Proof. split; eapply w_const; reflexivity. Qed.
(** The conditions are needed: 1 + 2 * a is not 3 * a, and 1.0 is not 1. *)
Theorem C76_sum_before_product_refuted : exists o o', computes (num (lit "1")) BPlus (num (lit "2")) (num (lit "3")) /\
  from_str proj g0 (show_items [(lit "a", Ex (num (lit "4")) []); (lit "b", Ex (num (lit "1")) [(BPlus, num (lit "2")); (BMult, AVar false (lit "a"))])]) = Some (OOk o) /\
  from_str proj g0 (show_items [(lit "a", Ex (num (lit "4")) []); (lit "b", Ex (num (lit "3")) [(BMult, AVar false (lit "a"))])]) = Some (OOk o') /\
  obj_get o (lit "b") = Some (VInt 9) /\ obj_get o' (lit "b") = Some (VInt 12).
Proof.
  eexists. eexists. split; [eexists _, _, _; repeat split; reflexivity|]. split; [vm_compute; reflexivity|]. split; [vm_compute; reflexivity|]. split; reflexivity.
Qed.
Theorem C76_kind_refuted : exists o o', from_str proj g0 (show_items [(lit "a", Ex (num (lit "1")) [])]) = Some (OOk o) /\
  from_str proj g0 (show_items [(lit "a", Ex (num (lit "1.0")) [])]) = Some (OOk o') /\ obj_eqb o o' = false.
Proof. eexists. eexists. split; [vm_compute; reflexivity|]. split; [vm_compute; reflexivity|]. reflexivity. Qed.
End Ex.
