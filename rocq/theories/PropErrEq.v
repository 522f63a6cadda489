(** * PropErrEq: C66, comparing errors and pairs. *)
From Verif Require Import Parser Api TypeSpec ValueSpec PropData PropMsg.
From Coq Require Import Lia.
From Coq Require String.
Import String.StringSyntax.
Open Scope N_scope.

(** Two types agree if one type specialises both (of the other types, each agrees only with itself). *)
Definition agree (a b : ty) : Prop := exists t, le_ty a t /\ le_ty b t.
(** The same kind of error about the same thing, with types that agree. *)
Inductive same_error : over_error -> over_error -> Prop :=
| se_arr_bounds i : same_error (OE_ArrOutOfBounds i) (OE_ArrOutOfBounds i)
| se_tup_bounds i : same_error (OE_TupOutOfBounds i) (OE_TupOutOfBounds i)
| se_not_found f : same_error (OE_FieldNotFound f) (OE_FieldNotFound f)
| se_bad_name f : same_error (OE_InvalidFieldName f) (OE_InvalidFieldName f)
| se_no_parent : same_error OE_NoParentFound OE_NoParentFound
| se_parse s : same_error (OE_ParseError s) (OE_ParseError s)
| se_io s : same_error (OE_IoError s) (OE_IoError s)
| se_arr a a' b b' : agree a a' -> agree b b' -> same_error (OE_ArrTypeMismatch a b) (OE_ArrTypeMismatch a' b')
| se_tup a a' b b' i : agree a a' -> agree b b' -> same_error (OE_TupTypeMismatch a b i) (OE_TupTypeMismatch a' b' i)
| se_type a a' b b' : agree a a' -> agree b b' -> same_error (OE_TypeMismatch a b) (OE_TypeMismatch a' b').
(** The types an error mentions. *)
Definition types_in (e : over_error) : list ty :=
  match e with
  | OE_ArrTypeMismatch a b | OE_TypeMismatch a b | OE_TupTypeMismatch a b _ => [a; b]
  | _ => []
  end.

Lemma str_eqb_iff a b : str_eqb a b = true <-> a = b.
Proof. destruct (str_eqb_spec a b); split; congruence. Qed.
Lemma agree_iff a b : ty_eqb a b = true <-> agree a b.
Proof. apply C11_type_eq_is_compatibility. Qed.
Theorem C66_error_eq e1 e2 : over_error_eqb e1 e2 = true <-> same_error e1 e2.
Proof.
  split.
  - destruct e1, e2; cbn [over_error_eqb]; try discriminate; rewrite ?andb_true_iff, ?N.eqb_eq, ?str_eqb_iff, ?agree_iff;
      intros; repeat match goal with H : _ /\ _ |- _ => destruct H end; subst; constructor; auto.
  - intros []; cbn [over_error_eqb]; rewrite ?andb_true_iff, ?N.eqb_eq, ?str_eqb_iff, ?agree_iff; auto.
Qed.
Theorem C66_refl_sym :
  (forall e, over_error_eqb e e = true) /\ (forall e1 e2, over_error_eqb e1 e2 = true -> over_error_eqb e2 e1 = true).
Proof.
  split.
  - intros []; cbn [over_error_eqb]; rewrite ?(proj1 C11_type_eq_refl_sym), ?N.eqb_refl; auto; apply str_eqb_iff; auto.
  - intros e1 e2. rewrite !C66_error_eq. assert (S : forall a b, agree a b -> agree b a) by (intros a b (t & ? & ?); exists t; auto).
    intros []; constructor; auto.
Qed.
(** Although the type implements [Eq]. *)
Theorem C66_transitive_refuted :
  ~ (forall e1 e2 e3, over_error_eqb e1 e2 = true -> over_error_eqb e2 e3 = true -> over_error_eqb e1 e3 = true).
Proof.
  intros H. specialize (H (OE_TypeMismatch TInt TStr) (OE_TypeMismatch TInt TAny) (OE_TypeMismatch TInt TBool) eq_refl eq_refl). discriminate.
Qed.
(** Errors that mention no Any are equal only if they are the same. *)
Theorem C66_exact_without_any e1 e2 :
  (forall t, In t (types_in e1 ++ types_in e2) -> ~ contains_any t) -> (over_error_eqb e1 e2 = true <-> e1 = e2).
Proof.
  intros A. split; [|intros ->; apply (proj1 C66_refl_sym)]. rewrite C66_error_eq.
  assert (X : forall a b, In a (types_in e1) -> In b (types_in e2) -> agree a b -> a = b).
  { intros a b Ia Ib E. apply C11_type_eq_without_any; [apply A, in_or_app; auto ..|]. apply agree_iff; auto. }
  intros S. revert X. clear A. destruct S; intros X; auto; rewrite (X a a'), (X b b'); cbn; auto.
Qed.
(** Errors with the same message are equal, if they are of the kinds that name their data (not a whole message); the
    converse fails. *)
Theorem C66_same_message e1 e2 : structured e1 -> structured e2 -> over_error_show e1 = over_error_show e2 -> over_error_eqb e1 e2 = true.
Proof. intros S1 S2 E. rewrite (C53_api_messages _ _ S1 S2 E). apply (proj1 C66_refl_sym). Qed.
Theorem C66_equal_but_other_message_refuted :
  ~ (forall e1 e2, over_error_eqb e1 e2 = true -> over_error_show e1 = over_error_show e2).
Proof. intros H. specialize (H (OE_TypeMismatch TInt TStr) (OE_TypeMismatch TInt TAny) eq_refl). discriminate. Qed.

(** Errors of loads, of texts or files, are equal exactly if their messages are the same. *)
Theorem C66_load_errors `{Unicode} fs1 g1 fs2 g2 e1 e2 :
  (exists t, from_str fs1 g1 t = Some (OErr e1)) \/ (exists p, from_file fs1 g1 p = Some (OErr e1)) ->
  (exists t, from_str fs2 g2 t = Some (OErr e2)) \/ (exists p, from_file fs2 g2 p = Some (OErr e2)) ->
  (over_error_eqb e1 e2 = true <-> over_error_show e1 = over_error_show e2).
Proof.
  assert (P : forall fs g e, (exists t, from_str fs g t = Some (OErr e)) \/ (exists p, from_file fs g p = Some (OErr e)) -> exists s, e = OE_ParseError s).
  { intros fs g e [[t E]|[p E]]; unfold from_str, from_file, to_ores in E; destruct (fst _); inversion E; unfold over_from_parse; eauto. }
  intros A B. apply P in A as [s ->]. apply P in B as [t ->]. cbn [over_error_eqb over_error_show]. apply str_eqb_iff.
Qed.

(** Pairs are equal if their names are the same and their values equal; for well-formed values: the same data. *)
Theorem C66_pair_eq p q : wf_value any_names (snd p) -> wf_value any_names (snd q) ->
  (obj_pair_eqb p q = true <-> fst p = fst q /\ erase (snd p) = erase (snd q)).
Proof. intros W1 W2. unfold obj_pair_eqb. rewrite andb_true_iff, str_eqb_iff. rewrite (C12_eq_is_same_data _ _ W1 W2). reflexivity. Qed.

(** What [Arr::from_values] says of [1, "a"] equals the error a test writes down, also one that leaves a type open. *)
Example C66_ex :
  arr_from_values 0 [VInt 1; VStr (lit "a")] = OErr (OE_ArrTypeMismatch TInt TStr) /\
  over_error_eqb (OE_ArrTypeMismatch TInt TStr) (OE_ArrTypeMismatch TInt TStr) = true /\
  over_error_eqb (OE_ArrTypeMismatch TInt TStr) (OE_ArrTypeMismatch TAny TStr) = true /\
  over_error_eqb (OE_ArrTypeMismatch TInt TStr) (OE_ArrTypeMismatch TStr TInt) = false /\
  over_error_eqb (OE_ArrTypeMismatch TInt TStr) (OE_TypeMismatch TInt TStr) = false /\
  over_error_eqb (OE_TypeMismatch (TArr TAny) TInt) (OE_TypeMismatch (TArr TStr) TInt) = true.
Proof. repeat split. Qed.
Example C66_load_ex : let U := Build_Unicode (fun _ => false) (fun _ => []) in
  (exists e, from_str no_fs g0 (lit "a: b") = Some (OErr e)) /\ (exists e, from_file no_fs g0 (lit "x") = Some (OErr e)).
Proof. intros U. split; eexists; vm_compute; reflexivity. Qed.
Example C66_pair_ex : obj_pair_eqb (lit "a", VArr (MkArr 1 TInt [VInt 1])) (lit "a", VArr (MkArr 2 TInt [VInt 1])) = true /\
  wf_value any_names (VArr (MkArr 1 TInt [VInt 1])).
Proof.
  split; [reflexivity|]. constructor; [repeat constructor|]. cbn. split; [repeat constructor|]. intros u C. inversion C; subst. assumption.
Qed.
