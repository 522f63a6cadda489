(** * Properties of types, values and containers: C09-C12, C14, C15, C29, C31-C33 (API part). *)
From Verif Require Import FormatProofs.
From Coq Require Import Permutation.
From Coq Require String.
Import String.StringSyntax.
Open Scope N_scope.

(** A concrete oracle for the examples: no letter beyond ASCII. *)
#[local] Instance ascii_only : Unicode := {| u_alpha := fun _ => false; u_debug := fun c => [c] |}.

(** ** C10 *)
Theorem C10_most_specific_is_lub a b :
  (forall t f, most_specific a b = Some (t, f) <->
               least_spec a b t /\ (f = true <-> contains_any t)) /\
  (most_specific a b = None <-> ~ exists t, common_spec a b t).
Proof.
  pose proof (most_specific_spec a b) as H. split.
  - intros t f. split.
    + intros E. rewrite E in H. destruct H as [H ->]. split; auto. apply has_any_iff.
    + intros [L Hf]. rewrite (most_specific_eq_some _ _ _ L). do 2 f_equal.
      apply eq_true_iff_eq. rewrite Hf. apply has_any_iff.
  - split; [intros E; rewrite E in H; auto | apply most_specific_eq_none].
Qed.

Theorem C10_most_specific_comm a b : most_specific a b = most_specific b a.
Proof. exact (most_specific_comm a b). Qed.

Theorem C10_most_specific_idem a :
  exists f, most_specific a a = Some (a, f).
Proof. exists (has_any a). exact (most_specific_idem a). Qed.

Theorem C10_most_specific_any_neutral a :
  (exists f, most_specific TAny a = Some (a, f)) /\ (exists f, most_specific a TAny = Some (a, f)).
Proof.
  split; exists (has_any a); [exact (most_specific_any_l a) | exact (most_specific_any_r a)].
Qed.

Theorem C10_most_specific_assoc a b c t :
  (exists ab f g, most_specific a b = Some (ab, f) /\ most_specific ab c = Some (t, g)) <->
  (exists bc f g, most_specific b c = Some (bc, f) /\ most_specific a bc = Some (t, g)).
Proof.
  pose proof (msj_assoc (Some a) (Some b) (Some c)) as H. cbn in H. split.
  - intros (ab & f & g & E1 & E2). rewrite E1 in H. cbn in H. rewrite E2 in H.
    destruct (most_specific b c) as [[bc f']|]; [|discriminate]. cbn in H.
    destruct (most_specific a bc) as [[u g']|] eqn:E; inversion H; subst. eauto 6.
  - intros (bc & f & g & E1 & E2). rewrite E1 in H. cbn in H. rewrite E2 in H.
    destruct (most_specific a b) as [[ab f']|]; [|discriminate]. cbn in H.
    destruct (most_specific ab c) as [[u g']|] eqn:E; inversion H; subst. eauto 6.
Qed.

Example C10_ex1 :
  most_specific (TTup [TArr TAny; TInt]) (TTup [TArr (TArr TAny); TAny]) =
  Some (TTup [TArr (TArr TAny); TInt], true).
Proof. reflexivity. Qed.
Example C10_ex2 : most_specific (TTup [TInt]) (TTup [TStr]) = None.
Proof. reflexivity. Qed.
Print Assumptions C10_most_specific_is_lub.
Print Assumptions C10_most_specific_comm.
Print Assumptions C10_most_specific_idem.
Print Assumptions C10_most_specific_any_neutral.
Print Assumptions C10_most_specific_assoc.

(** ** C11 *)
Theorem C11_type_eq_is_compatibility a b :
  ty_eqb a b = true <-> exists t, common_spec a b t.
Proof. exact (ty_eqb_iff a b). Qed.

Theorem C11_type_eq_refl_sym :
  (forall a, ty_eqb a a = true) /\ (forall a b, ty_eqb a b = true -> ty_eqb b a = true).
Proof. split; [exact ty_eqb_refl | intros a b; rewrite ty_eqb_sym; auto]. Qed.

(** The Eq contract asks for transitivity; it fails. *)
Theorem C11_type_eq_transitive_refuted :
  ~ (forall a b c, ty_eqb a b = true -> ty_eqb b c = true -> ty_eqb a c = true).
Proof. intros H. specialize (H TInt TAny TStr eq_refl eq_refl). discriminate. Qed.

(** It fails only through Any: on types without Any, == is identity. *)
Theorem C11_type_eq_without_any a b :
  ~ contains_any a -> ~ contains_any b -> (ty_eqb a b = true <-> a = b).
Proof.
  intros Ha Hb. rewrite <- has_any_iff in Ha, Hb. apply not_true_is_false in Ha, Hb.
  rewrite ty_eqb_iff. split; [|intros ->; exists b; split; apply le_ty_refl].
  intros (t & H1 & H2). rewrite <- (no_any_maximal _ _ Ha H1), <- (no_any_maximal _ _ Hb H2). auto.
Qed.

Theorem C11_is_is_identity a b : ty_is a b = true <-> a = b.
Proof. exact (ty_is_iff a b). Qed.

Example C11_ex : ty_eqb (TArr (TTup [TAny; TInt])) (TArr (TTup [TStr; TInt])) = true /\
                 ty_is (TArr (TTup [TAny; TInt])) (TArr (TTup [TStr; TInt])) = false.
Proof. split; reflexivity. Qed.
Print Assumptions C11_type_eq_is_compatibility.
Print Assumptions C11_type_eq_refl_sym.
Print Assumptions C11_type_eq_transitive_refuted.
Print Assumptions C11_type_eq_without_any.
Print Assumptions C11_is_is_identity.

(** ** C09 *)
Theorem C09_from_values_accepts_iff id vs :
  (exists a, arr_from_values id vs = OOk a) <-> exists t, common_spec_all (map get_type vs) t.
Proof.
  pose proof (arr_from_values_spec id vs) as H.
  destruct (arr_from_values id vs) as [a|e]; split; intros E; eauto.
  - destruct H as (_ & _ & H & _). eauto.
  - destruct E; discriminate.
  - destruct E as [t E]. exfalso. eapply (proj2 H); eauto.
Qed.

Theorem C09_from_values_result id vs a :
  arr_from_values id vs = OOk a ->
  arr_values a = vs /\ least_spec_all (map get_type vs) (arr_inner_type a).
Proof.
  pose proof (arr_from_values_spec id vs) as H. intros E. rewrite E in H. apply H.
Qed.

Theorem C09_from_values_error id vs e :
  arr_from_values id vs = OErr e -> exists t1 t2, e = OE_ArrTypeMismatch t1 t2.
Proof.
  pose proof (arr_from_values_spec id vs) as H. intros E. rewrite E in H. apply H.
Qed.

Theorem C09_from_values_order_irrelevant id id' vs vs' :
  Permutation vs vs' ->
  ((exists a, arr_from_values id vs = OOk a) <-> (exists a, arr_from_values id' vs' = OOk a)) /\
  (forall a a', arr_from_values id vs = OOk a -> arr_from_values id' vs' = OOk a' ->
                arr_inner_type a = arr_inner_type a').
Proof.
  intros P. apply (Permutation_map get_type) in P. split.
  - rewrite !C09_from_values_accepts_iff. split; intros [t H]; exists t;
      (eapply common_spec_all_perm; [|exact H]); auto using Permutation_sym.
  - intros a a' E1 E2. apply C09_from_values_result in E1 as [_ E1], E2 as [_ E2].
    eapply least_spec_all_unique; [|exact E2]. eapply least_spec_all_perm; eauto.
Qed.

Example C09_ex_ok :
  exists a, arr_from_values 7 [VArr (MkArr 0 TAny []); VArr (MkArr 1 TInt [VInt 1])] = OOk a /\
            arr_inner_type a = TArr TInt.
Proof. eexists; split; reflexivity. Qed.
Example C09_ex_err : arr_from_values 7 [VInt 1; VNull] = OErr (OE_ArrTypeMismatch TInt TNull).
Proof. reflexivity. Qed.
Print Assumptions C09_from_values_accepts_iff.
Print Assumptions C09_from_values_result.
Print Assumptions C09_from_values_error.
Print Assumptions C09_from_values_order_irrelevant.

(** ** C12.  [wf_value any_names] is the invariant of every value that the parser (C07) or a
    checked constructor builds; [erase] forgets ids. *)
Theorem C12_eq_is_same_data v w :
  wf_value any_names v -> wf_value any_names w ->
  (value_eqb v w = true <-> erase v = erase w).
Proof. exact (value_eqb_iff v w). Qed.

Theorem C12_eq_equivalence :
  (forall v, value_eqb v v = true) /\
  (forall v w, wf_value any_names v -> wf_value any_names w ->
     value_eqb v w = true -> value_eqb w v = true) /\
  (forall u v w, wf_value any_names u -> wf_value any_names v -> wf_value any_names w ->
     value_eqb u v = true -> value_eqb v w = true -> value_eqb u w = true).
Proof.
  split; [|split].
  - intros v. apply value_eqb_complete. auto.
  - intros v w Wv Ww E. apply value_eqb_iff in E; auto. apply value_eqb_iff; auto.
  - intros u v w Wu Wv Ww E1 E2. apply value_eqb_iff in E1, E2; auto.
    apply value_eqb_iff; auto. congruence.
Qed.

Theorem C12_eq_same_type_and_text v w :
  wf_value any_names v -> wf_value any_names w -> value_eqb v w = true ->
  get_type v = get_type w /\ value_display v = value_display w.
Proof.
  intros Wv Ww E. apply value_eqb_iff in E; auto. split.
  - rewrite <- (get_type_erase v), <- (get_type_erase w), E. auto.
  - rewrite !value_display_fmt. f_equal. apply fmt_same; auto.
Qed.

(** The checked constructors build well-formed values from well-formed elements. *)
Theorem C12_checked_constructors_wf :
  (forall id vs a, Forall (wf_value any_names) vs -> arr_from_values id vs = OOk a ->
     wf_value any_names (VArr a)) /\
  (forall id vs, Forall (wf_value any_names) vs ->
     wf_value any_names (VTup (tup_from_values id vs))) /\
  (forall `{Unicode} id ps par o, Forall (wf_value any_names) (map snd ps) ->
     (forall p, par = Some p -> wf_obj any_names p) ->
     obj_from_pairs id ps par = OOk o -> wf_value any_names (VObj o)).
Proof.
  split; [|split].
  - intros id vs [i t vs'] W E. apply C09_from_values_result in E as [E1 E2]. cbn in *. subst.
    constructor; auto.
  - intros id vs W. constructor; auto.
  - intros U id ps par o W Wp E. unfold obj_from_pairs in E.
    destruct (obj_from_pairs_check ps); inversion E; subst. constructor. constructor; auto. exact I.
Qed.

(** With [from_values_unchecked], transitivity fails. *)
Theorem C12_unchecked_transitive_refuted :
  ~ (forall u v w, value_eqb u v = true -> value_eqb v w = true -> value_eqb u w = true).
Proof.
  intros H.
  specialize (H (VArr (arr_from_values_unchecked 0 [] TInt))
                (VArr (arr_from_values_unchecked 1 [] TAny))
                (VArr (arr_from_values_unchecked 2 [] TStr)) eq_refl eq_refl).
  discriminate.
Qed.

Example C12_ex_wf : wf_value any_names
  (VArr (MkArr 3 (TTup [TFrac; TArr TAny])
     [VTup (MkTup 4 [TFrac; TArr TAny] [VFrac (1 # 2); VArr (MkArr 5 TAny [])])])).
Proof.
  constructor.
  - constructor; [|constructor]. constructor; auto. constructor; [constructor; reflexivity|].
    constructor; [|constructor]. constructor; [constructor|]. apply least_spec_all_nil.
  - split.
    + repeat constructor.
    + intros u Hu. inversion Hu; subst. auto.
Qed.
Print Assumptions C12_eq_is_same_data.
Print Assumptions C12_eq_equivalence.
Print Assumptions C12_eq_same_type_and_text.
Print Assumptions C12_checked_constructors_wf.
Print Assumptions C12_unchecked_transitive_refuted.

(** ** C14 *)
Theorem C14_get_nearest_in_chain o f v :
  obj_get o f = Some v <->
  exists before s after, chain o = before ++ s :: after /\
    Forall (fun p => ~ has_field p f) before /\ stored s f v.
Proof.
  pose proof (obj_get_with_source_spec o f) as H. split.
  - intros E. destruct (obj_get_with_source o f) as [[w s]|].
    + destruct H as [H (b & a & E1 & E2 & E3)]. rewrite E in H. inversion H; subst. eauto 7.
    + destruct H as [H _]. congruence.
  - intros (b & s & a & E1 & E2 & E3). destruct (obj_get_with_source o f) as [[w s']|].
    + destruct H as [H (b' & a' & F1 & F2 & F3)]. rewrite H. f_equal.
      assert (s = s'); [|subst; eapply stored_fun; eauto].
      rewrite E1 in F1. clear - E2 E3 F1 F2 F3. apply stored_has_field in E3, F3.
      revert b' F1 F2. induction b as [|x b IH]; intros [|y b'] F1 F2; cbn in F1.
      * congruence.
      * inversion F1; subst. inversion F2; subst. contradiction.
      * inversion F1; subst. inversion E2; subst. contradiction.
      * inversion F1; subst. inversion E2; inversion F2; subst. eapply IH; eauto.
    + exfalso. destruct H as [_ H]. rewrite E1 in H. apply Forall_app in H as [_ H].
      inversion H; subst. apply H2. eapply stored_has_field; eauto.
Qed.

Theorem C14_get_none_iff o f :
  obj_get o f = None <-> Forall (fun p => ~ has_field p f) (chain o).
Proof.
  split.
  - intros E. pose proof (obj_get_with_source_spec o f) as H.
    destruct (obj_get_with_source o f) as [[w s]|]; [destruct H; congruence|apply H].
  - intros H. destruct (obj_get o f) as [v|] eqn:E; auto. exfalso.
    apply C14_get_nearest_in_chain in E as (b & s & a & E1 & _ & E3).
    rewrite E1 in H. apply Forall_app in H as [_ H]. inversion H; subst.
    apply H2. eapply stored_has_field; eauto.
Qed.

Theorem C14_get_with_source_agrees o f :
  (forall v, (exists s, obj_get_with_source o f = Some (v, s)) <-> obj_get o f = Some v) /\
  (forall v s, obj_get_with_source o f = Some (v, s) ->
     exists before after, chain o = before ++ s :: after /\ Forall (fun p => ~ has_field p f) before /\ stored s f v).
Proof.
  pose proof (obj_get_with_source_spec o f) as H. split.
  - intros v. destruct (obj_get_with_source o f) as [[w s]|]; destruct H as [H _]; rewrite H; split.
    + intros [s' E]; inversion E; subst; auto.
    + intros E; inversion E; subst; eauto.
    + intros [s' E]; discriminate.
    + discriminate.
  - intros v s E. rewrite E in H. destruct H as [_ H]. exact H.
Qed.

(** contains, len, is_empty look at the Obj itself only. *)
Theorem C14_own_fields_only id id' ps par par' f :
  obj_contains (MkObj id ps par) f = obj_contains (MkObj id' ps par') f /\
  (obj_contains (MkObj id ps par) f = true <-> In f (map fst ps)) /\
  obj_len (MkObj id ps par) = N.of_nat (List.length ps) /\
  (obj_is_empty (MkObj id ps par) = true <-> ps = []).
Proof.
  split; [reflexivity|]. split; [apply has_field_iff|]. split; [reflexivity|].
  unfold obj_is_empty; cbn. destruct ps; split; congruence.
Qed.

Example C14_ex :
  let g := MkObj 0 [(lit "a", VInt 1); (lit "b", VInt 2)] None in
  let o := MkObj 1 [(lit "a", VInt 3)] (Some g) in
  obj_get o (lit "a") = Some (VInt 3) /\ obj_get_with_source o (lit "b") = Some (VInt 2, g) /\
  obj_contains o (lit "b") = false.
Proof. repeat split; reflexivity. Qed.
Print Assumptions C14_get_nearest_in_chain.
Print Assumptions C14_get_none_iff.
Print Assumptions C14_get_with_source_agrees.
Print Assumptions C14_own_fields_only.

(** ** C15.  A getter for a kind of values: [inj] builds the values of that kind, [expected] is the
    type named in the error. *)
Definition precise_getter {A} (g : obj -> str -> ores A) (expected : ty) (inj : A -> value) : Prop :=
  forall o f,
    (forall a, g o f = OOk a <-> obj_get o f = Some (inj a)) /\
    (g o f = OErr (OE_FieldNotFound f) <-> obj_get o f = None) /\
    (forall v, obj_get o f = Some v -> (forall a, v <> inj a) ->
               g o f = OErr (OE_TypeMismatch expected (get_type v))).

Ltac getter := intros o f; unfold obj_get_typed;
  destruct (obj_get o f) as [[]|]; cbn; repeat split; intros; try discriminate;
  repeat match goal with
         | H : OOk _ = OOk _ |- _ => inversion H; clear H; subst
         | H : Some _ = Some _ |- _ => inversion H; clear H; subst
         end; auto;
  try (exfalso; congruence);
  try (match goal with H : forall a, _ <> _ |- _ => exfalso; eapply H; reflexivity end).

Theorem C15_typed_getters :
  precise_getter (obj_get_typed get_bool) TBool VBool /\
  precise_getter (obj_get_typed get_int) TInt VInt /\
  precise_getter (obj_get_typed get_str) TStr VStr /\
  precise_getter (obj_get_typed get_arr) (TArr TAny) VArr /\
  precise_getter (obj_get_typed get_tup) (TTup []) VTup /\
  precise_getter (obj_get_typed get_obj) TObj VObj.
Proof. repeat match goal with |- _ /\ _ => split end; getter. Qed.

(** [is_null] says whether no getter gives anything. *)
Theorem C15_is_null v :
  is_null v = true <->
  (forall b, get_bool v <> OOk b) /\ (forall z, get_int v <> OOk z) /\ (forall q, get_frac v <> OOk q) /\ (forall s, get_str v <> OOk s) /\
  (forall a, get_arr v <> OOk a) /\ (forall t, get_tup v <> OOk t) /\ (forall o, get_obj v <> OOk o).
Proof.
  destruct v; cbn -[Qred]; split; intros H; try discriminate; try reflexivity; try (repeat split; intros; discriminate);
    destruct H as (H1 & H2 & H3 & H4 & H5 & H6 & H7); exfalso;
    first [eapply H1; reflexivity|eapply H2; reflexivity|eapply H3; reflexivity|eapply H4; reflexivity|eapply H5; reflexivity|eapply H6; reflexivity|eapply H7; reflexivity].
Qed.
Theorem C15_get_frac o f :
  (forall q, obj_get_typed get_frac o f = OOk q <->
     obj_get o f = Some (VFrac q) \/ exists z, obj_get o f = Some (VInt z) /\ q = Qmake z 1) /\
  (obj_get_typed get_frac o f = OErr (OE_FieldNotFound f) <-> obj_get o f = None) /\
  (forall v, obj_get o f = Some v -> (forall q, v <> VFrac q) -> (forall z, v <> VInt z) ->
     obj_get_typed get_frac o f = OErr (OE_TypeMismatch TFrac (get_type v))).
Proof.
  assert (R : forall z, Qred (Qmake z 1) = Qmake z 1).
  { intros z. apply lowest_Qred. unfold lowest. cbn. apply Z.gcd_1_r. }
  unfold obj_get_typed. destruct (obj_get o f) as [[]|]; cbn -[Qred]; rewrite ?R;
    repeat split; intros; try discriminate;
    repeat match goal with
         | H : _ \/ _ |- _ => destruct H
         | H : exists _, _ |- _ => destruct H
         | H : _ /\ _ |- _ => destruct H
         | H : OOk _ = OOk _ |- _ => inversion H; clear H; subst
         | H : Some _ = Some _ |- _ => inversion H; clear H; subst
         end; auto; try discriminate; try (exfalso; congruence);
    try (right; eauto; fail);
    try (match goal with H : forall a, _ <> _ |- _ => exfalso; eapply H; reflexivity end).
Qed.

Example C15_ex :
  let o := MkObj 1 [(lit "a", VInt 3)] None in
  obj_get_typed get_frac o (lit "a") = OOk (3 # 1) /\
  obj_get_typed get_str o (lit "a") = OErr (OE_TypeMismatch TStr TInt) /\
  obj_get_typed get_str o (lit "b") = OErr (OE_FieldNotFound (lit "b")).
Proof. repeat split; reflexivity. Qed.
Print Assumptions C15_typed_getters.
Print Assumptions C15_get_frac.

(** ** C29 (API part; the dot notation is in PropEval.v) *)
Theorem C29_index_bounds_checked i v :
  (forall a, arr_get a i = OOk v <-> nth_error (arr_values a) (N.to_nat i) = Some v) /\
  (forall a, arr_get a i = OErr (OE_ArrOutOfBounds i) <-> N.of_nat (List.length (arr_values a)) <= i) /\
  (forall t, tup_get t i = OOk v <-> nth_error (tup_values t) (N.to_nat i) = Some v) /\
  (forall t, tup_get t i = OErr (OE_TupOutOfBounds i) <-> N.of_nat (List.length (tup_values t)) <= i).
Proof.
  assert (X : forall l : list value, nth_error l (N.to_nat i) = None <-> N.of_nat (List.length l) <= i)
    by (intros l; rewrite nth_error_None; lia).
  repeat split; rewrite ?arr_get_spec, ?tup_get_spec; intros H.
  - destruct (nth_error _ _); inversion H; auto.
  - rewrite H; auto.
  - apply X. destruct (nth_error _ _); [discriminate|auto].
  - apply X in H. rewrite H. auto.
  - destruct (nth_error _ _); inversion H; auto.
  - rewrite H; auto.
  - apply X. destruct (nth_error _ _); [discriminate|auto].
  - apply X in H. rewrite H. auto.
Qed.
Example C29_ex : arr_get (MkArr 0 TInt [VInt 5; VInt 6]) 1 = OOk (VInt 6) /\
  tup_get (MkTup 0 [TInt] [VInt 5]) 1 = OErr (OE_TupOutOfBounds 1).
Proof. split; reflexivity. Qed.
Print Assumptions C29_index_bounds_checked.

(** ** C31 *)

(** What is_valid_field accepts: letters, digits and underscores, where the first character is
    not a digit but may be '^'; the empty name included. *)
Definition api_field `{Unicode} (f : str) : Prop :=
  f = [] \/ exists c r, f = c :: r /\
    (ch_is_alphabetic c = true \/ c = c_under \/ c = c_caret) /\
    Forall (fun d => ch_is_alphabetic d = true \/ is_digit d = true \/ d = c_under) r.

Lemma valid_rest `{Unicode} r : is_valid_field_from false r = true <->
  Forall (fun d => ch_is_alphabetic d = true \/ is_digit d = true \/ d = c_under) r.
Proof.
  induction r as [|d r IH]; cbn; [intuition|]. unfold is_valid_field_char. split.
  - destruct (ch_is_alphabetic d) eqn:E1; [intros Hd; constructor; intuition|].
    destruct (is_digit d) eqn:E2; [intros Hd; constructor; intuition|].
    destruct (N.eqb_spec d 95); [intros Hd; constructor; intuition|].
    destruct (d =? 94); discriminate.
  - intros Hd. inversion Hd as [|? ? [E|[E|E]] Hr]; subst; apply IH in Hr; rewrite Hr.
    + rewrite E. auto.
    + rewrite E. destruct (ch_is_alphabetic d); auto.
    + destruct (ch_is_alphabetic 95); auto.
Qed.

Theorem C31_is_valid_field_iff `{Unicode} f : is_valid_field f = true <-> api_field f.
Proof.
  unfold is_valid_field, api_field. destruct f as [|c r]; [cbn; intuition|].
  cbn [is_valid_field_from]. unfold is_valid_field_char. split.
  - intros Hv. right. exists c, r. split; auto. rewrite <- valid_rest.
    destruct (ch_is_alphabetic c) eqn:E1; [auto|].
    destruct (is_digit c) eqn:E2; [discriminate|].
    destruct (N.eqb_spec c 95); [auto|]. destruct (N.eqb_spec c 94); [auto|discriminate].
  - intros [|(c' & r' & E & Hc & Hr)]; [discriminate|]. inversion E; subst.
    apply valid_rest in Hr. rewrite Hr. destruct (ch_is_alphabetic c') eqn:E1; auto.
    destruct Hc as [Hc|[Hc|Hc]]; [congruence| |]; subst; reflexivity.
Qed.

Theorem C31_from_pairs `{Unicode} id ps par :
  (forall o, obj_from_pairs id ps par = OOk o <->
     Forall (fun p => api_field (fst p)) ps /\ o = MkObj id ps par) /\
  (forall e, obj_from_pairs id ps par = OErr e <->
     exists before bad after, ps = before ++ bad :: after /\
       Forall (fun p => api_field (fst p)) before /\ ~ api_field (fst bad) /\
       e = OE_InvalidFieldName (fst bad)).
Proof.
  assert (X : match obj_from_pairs_check ps with
    | None => Forall (fun p => api_field (fst p)) ps
    | Some f => exists before bad after, ps = before ++ bad :: after /\
         Forall (fun p => api_field (fst p)) before /\ ~ api_field (fst bad) /\ f = fst bad
    end).
  { induction ps as [|[f v] ps IH]; cbn; auto.
    destruct (is_valid_field f) eqn:E; cbn.
    - apply C31_is_valid_field_iff in E. destruct (obj_from_pairs_check ps).
      + destruct IH as (b & x & a & -> & Hb & Hx & ->). exists ((f, v) :: b), x, a.
        repeat split; auto.
      + constructor; auto.
    - exists [], (f, v), ps. repeat split; auto. cbn. rewrite <- C31_is_valid_field_iff. congruence. }
  unfold obj_from_pairs. destruct (obj_from_pairs_check ps) as [f|].
  - destruct X as (b & x & a & -> & Hb & Hx & ->). split.
    + intros o. split; [discriminate|]. intros [Hf _]. apply Forall_app in Hf as [_ Hf].
      inversion Hf; subst. contradiction.
    + intros e. split; [intros E; inversion E; subst; eauto 8|].
      intros (b' & x' & a' & E & Hb' & Hx' & ->). do 2 f_equal. f_equal.
      clear - E Hb Hb' Hx Hx'. revert b' E Hb'. induction b as [|y b IH]; intros [|y' b'] E Hb'; cbn in E.
      * congruence.
      * inversion E; subst. inversion Hb'; subst. contradiction.
      * inversion E; subst. inversion Hb; subst. contradiction.
      * inversion E; subst. inversion Hb; inversion Hb'; subst. eauto.
  - split.
    + intros o. split; [intros E; inversion E; auto|intros [_ ->]; auto].
    + intros e. split; [discriminate|]. intros (b' & x' & a' & E & Hb' & Hx' & ->).
      subst. apply Forall_app in X as [_ X]. inversion X; subst. contradiction.
Qed.

(** Names the API accepts and the parser rejects (legal_field is what the parser accepts, C07). *)
Theorem C31_api_accepts_unparseable :
  (api_field (lit "") /\ ~ legal_field (lit "")) /\
  (api_field (lit "^x") /\ ~ legal_field (lit "^x")) /\
  (api_field (lit "true") /\ ~ legal_field (lit "true")) /\
  (exists o, obj_from_pairs 0 [(lit "a", VNull); (lit "a", VNull)] None = OOk o).
Proof.
  split; [|split; [|split]].
  - split; [left; reflexivity|]. intros (c & r & E & _). discriminate.
  - split; [apply C31_is_valid_field_iff; reflexivity|].
    intros (c & r & E & Hc & _). inversion E; subst. destruct Hc as [Hc|Hc]; discriminate.
  - split; [apply C31_is_valid_field_iff; reflexivity|].
    intros (c & r & E & _ & _ & Hn). apply Hn. cbn. auto.
  - eexists; reflexivity.
Qed.

(** Every legal name is accepted by the API, so every Obj the parser builds could have been built
    with from_pairs. *)
Theorem C31_legal_is_api `{Unicode} f : legal_field f -> api_field f.
Proof.
  intros (c & r & E & Hc & Hr & _). right. exists c, r. intuition.
Qed.

(** try_obj!: the pairs are the entries not named "^", in order; the parent is the value of the
    last entry named "^". *)
Definition is_caret (p : str * value) : bool := str_eqb (fst p) (lit "^").
Theorem C31_try_obj `{Unicode} id es :
  try_obj id es =
  match find is_caret (rev es) with
  | Some (_, VObj p) => obj_from_pairs id (filter (fun e => negb (is_caret e)) es) (Some p)
  | Some (_, v) => OErr (OE_TypeMismatch TObj (get_type v))
  | None => obj_from_pairs id (filter (fun e => negb (is_caret e)) es) None
  end.
Proof.
  assert (X : forall es ps par, try_obj_split es ps par =
    (ps ++ filter (fun e => negb (is_caret e)) es,
     match find is_caret (rev es) with Some (_, v) => Some v | None => par end)).
  { assert (FA : forall (l1 l2 : list pair_t), find is_caret (l1 ++ l2) =
        match find is_caret l1 with Some x => Some x | None => find is_caret l2 end).
    { induction l1; cbn; intros; auto. destruct (is_caret a); auto. }
    clear es. induction es as [|[f v] es IH]; intros ps par;
      cbn [try_obj_split rev filter find]; [rewrite app_nil_r; auto|].
    rewrite FA. cbn [find]. change (str_eqb f (lit "^")) with (is_caret (f, v)).
    destruct (is_caret (f, v)); rewrite IH; cbn [negb].
    - f_equal. destruct (find is_caret (rev es)) as [[? ?]|]; auto.
    - rewrite <- app_assoc. f_equal. destruct (find is_caret (rev es)) as [[? ?]|]; auto. }
  unfold try_obj. rewrite X. cbn [app].
  destruct (find is_caret (rev es)) as [[f v]|]; auto. destruct v; auto.
Qed.

Example C31_ex :
  try_obj 5 [(lit "^", VNull); (lit "a", VInt 1); (lit "^", VObj (MkObj 2 [] None))] =
    OOk (MkObj 5 [(lit "a", VInt 1)] (Some (MkObj 2 [] None))) /\
  obj_from_pairs 5 [(lit "a", VNull); (lit "b c", VNull); (lit "1", VNull)] None =
    OErr (OE_InvalidFieldName (lit "b c")).
Proof. split; reflexivity. Qed.
Print Assumptions C31_is_valid_field_iff.
Print Assumptions C31_from_pairs.
Print Assumptions C31_api_accepts_unparseable.
Print Assumptions C31_legal_is_api.
Print Assumptions C31_try_obj.

(** ** C32.  [lo..hi] is the range of the native type, [n] one of its values. *)
Theorem C32_native_int_comparison_exact lo hi v n :
  (lo <= n <= hi)%Z -> (value_eq_native lo hi v n = true <-> v = VInt n).
Proof.
  intros R. unfold value_eq_native. destruct v; try (split; discriminate).
  destruct (Z.leb_spec lo z), (Z.leb_spec z hi); cbn.
  - rewrite Z.eqb_eq. split; congruence.
  - split; [discriminate|]. intros E; inversion E; subst. lia.
  - split; [discriminate|]. intros E; inversion E; subst. lia.
  - split; [discriminate|]. intros E; inversion E; subst. lia.
Qed.
Example C32_ex : value_eq_native 0 255 (VInt 256) 0 = false /\
  value_eq_native (-128) 127 (VInt (-128)) (-128) = true.
Proof. split; reflexivity. Qed.
Print Assumptions C32_native_int_comparison_exact.

(** ** C33 (formatting part; the fixpoint part needs the round trip, PropRoundtrip.v) *)
Theorem C33_writing_never_panics :
  (forall o, exists s, write_to_string o = Some s) /\
  (forall v, exists s, value_display v = Some s) /\
  (forall o, exists s, obj_display o = Some s).
Proof.
  split; [|split]; intros; eexists;
    [apply write_to_string_fmt | apply value_display_fmt | apply obj_display_fmt].
Qed.

Theorem C33_equal_objs_same_text o p :
  wf_obj any_names o -> wf_obj any_names p -> obj_eqb o p = true ->
  write_to_string o = write_to_string p.
Proof.
  intros Wo Wp E. apply obj_eqb_iff in E; auto. rewrite !write_to_string_fmt. f_equal.
  apply fmt_body_same; auto.
Qed.
Example C33_ex : write_to_string (MkObj 9 [(lit "a", VTup (MkTup 1 [TInt; TNull] [VInt 1; VNull]))] None)
  = Some (lit "a: (" ++ [c_nl] ++ lit "    1" ++ [c_nl] ++ lit "    null" ++ [c_nl] ++ lit ")" ++ [c_nl]).
Proof. reflexivity. Qed.
Print Assumptions C33_writing_never_panics.
Print Assumptions C33_equal_objs_same_text.
