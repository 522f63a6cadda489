(** * PropType: C08, the type of a value is the type of its contents. *)
From Verif Require Import Complete LangSpec PropLoad PropScope PropLang PropLit PropComplete PropNames PropOps Prefix PropStep Roundtrip.
From Coq Require String.
Import String.StringSyntax.
Open Scope N_scope.

(** What the type of a value should be, read off its contents alone: an Arr of the least common type of its elements, a
    Tup of the types of its elements. *)
Inductive of_type : value -> ty -> Prop :=
| ot_null : of_type VNull TNull
| ot_bool b : of_type (VBool b) TBool
| ot_int z : of_type (VInt z) TInt
| ot_frac q : of_type (VFrac q) TFrac
| ot_str s : of_type (VStr s) TStr
| ot_arr id st vs ts t : of_types vs ts -> least_spec_all ts t -> of_type (VArr (MkArr id st vs)) (TArr t)
| ot_tup id st vs ts : of_types vs ts -> of_type (VTup (MkTup id st vs)) (TTup ts)
| ot_obj o : of_type (VObj o) TObj
with of_types : list value -> list ty -> Prop :=
| ots_nil : of_types [] []
| ots_cons v vs t ts : of_type v t -> of_types vs ts -> of_types (v :: vs) (t :: ts).

Lemma of_types_map vs : (forall v, In v vs -> forall t, of_type v t <-> get_type v = t) -> forall ts, of_types vs ts <-> ts = map get_type vs.
Proof.
  induction vs as [|v vs IH]; intros F ts; cbn [map].
  - split; [intros H; inversion H; reflexivity|intros ->; constructor].
  - specialize (IH (fun w I => F w (or_intror I))). split.
    + intros H. inversion H; subst. apply (F v (or_introl eq_refl)) in H2. apply IH in H4. congruence.
    + intros ->. constructor; [apply F; [left; reflexivity|reflexivity]|apply IH; reflexivity].
Qed.
Lemma wf_of_type P : (forall v, wf_value P v -> forall t, of_type v t <-> get_type v = t) /\ (forall o : obj, True).
Proof.
  apply value_obj_ind2; try exact (fun _ => I); try (intros; split; [intros H'; inversion H'; reflexivity|intros <-; constructor]); auto.
  - intros id st vs IH W t. inversion W; subst.
    assert (M : forall ts, of_types vs ts <-> ts = map get_type vs).
    { apply of_types_map. intros v I. rewrite Forall_forall in IH. match goal with H : Forall _ vs |- _ => rewrite Forall_forall in H; apply IH; auto end. }
    cbn [get_type arr_inner_type]. split.
    + intros H. inversion H; subst. match goal with H : of_types _ _ |- _ => apply M in H end. subst. f_equal. eapply least_spec_all_unique; eauto.
    + intros <-. eapply ot_arr; [apply M; reflexivity|assumption].
  - intros id st vs IH W t. inversion W; subst.
    assert (M : forall ts, of_types vs ts <-> ts = map get_type vs).
    { apply of_types_map. intros v I. rewrite Forall_forall in IH. match goal with H : Forall _ vs |- _ => rewrite Forall_forall in H; apply IH; auto end. }
    cbn [get_type tup_types]. split.
    + intros H. inversion H; subst. match goal with H : of_types _ _ |- _ => apply M in H end. congruence.
    + intros <-. apply ot_tup. apply M. reflexivity.
Qed.

Section P.
Context `{U : Unicode}.
(** [get_type] of everything in a loaded Obj. *)
Theorem C08_get_type fs g o v t : loaded fs g o -> part v (VObj o) -> (of_type v t <-> get_type v = t).
Proof. intros L P. apply loaded_wf in L. apply (wf_part _ _ (wf_vobj _ _ L)) in P. eapply wf_of_type; eauto. Qed.
(** [inner_type] and [inner_type_vec] say the same as [get_type] of the contents. *)
Theorem C08_inner_types fs g o : loaded fs g o ->
  (forall a t, part (VArr a) (VObj o) -> (of_type (VArr a) (TArr t) <-> arr_inner_type a = t)) /\
  (forall a ts, part (VTup a) (VObj o) -> (of_type (VTup a) (TTup ts) <-> tup_types a = ts)).
Proof.
  intros L. split; intros a t P.
  - rewrite (C08_get_type fs g o (VArr a) (TArr t) L P). cbn. split; [intros E; inversion E; reflexivity|intros <-; reflexivity].
  - rewrite (C08_get_type fs g o (VTup a) (TTup t) L P). cbn. split; [intros E; inversion E; reflexivity|intros <-; reflexivity].
Qed.
(** The same for the values a program makes: the type of an Arr or Tup made from values whose types are right is right,
    and getters never give another one. *)
Theorem C09_get_type id vs : (forall v, In v vs -> of_type v (get_type v)) ->
  (forall a, arr_from_values id vs = OOk a -> of_type (VArr a) (get_type (VArr a))) /\
  of_type (VTup (tup_from_values id vs)) (get_type (VTup (tup_from_values id vs))).
Proof.
  intros F. assert (M : of_types vs (map get_type vs)).
  { induction vs as [|v vs IH]; cbn [map]; constructor; [apply F; left; reflexivity|apply IH; intros w I; apply F; right; exact I]. }
  split.
  - intros a E. apply PropData.C09_from_values_result in E as [<- L]. destruct a as [i t vs']. cbn in *. eapply ot_arr; eauto.
  - cbn. apply ot_tup. exact M.
Qed.
(** ** Examples *)
Definition ex_type_text : str := lit "a: [([] 1) ([2] 3)] b: (a {} null)".
Definition ex_typed : obj := match from_str no_fs g0 ex_type_text with Some (OOk o) => o | _ => obj_empty 0 end.
Example C08_ex_type : loaded no_fs g0 ex_typed /\
  option_map get_type (obj_get ex_typed (lit "b")) = Some (TTup [TArr (TTup [TArr TInt; TInt]); TObj; TNull]) /\
  exists v, obj_get ex_typed (lit "b") = Some v /\ part v (VObj ex_typed).
Proof.
  assert (L : from_str no_fs g0 ex_type_text = Some (OOk ex_typed)) by (vm_compute; reflexivity).
  split; [left; eauto|]. split; [vm_compute; reflexivity|].
  assert (E : exists v, obj_get ex_typed (lit "b") = Some v) by (eexists; vm_compute; reflexivity).
  destruct E as [v E]. exists v. split; [exact E|]. revert E. assert (N : obj_parent ex_typed = None) by (vm_compute; reflexivity).
  destruct ex_typed as [i ps par]. cbn [obj_parent] in N. subst par. cbn [obj_get]. destruct (assoc (lit "b") ps) as [w|] eqn:A; [|discriminate].
  intros E. inversion E; subst. apply assoc_some in A as (l & r & -> & _). eapply part_field; [apply in_or_app; right; left; reflexivity|constructor].
Qed.
Example C09_ex_type : (forall v, In v [VInt 1; VStr []] -> of_type v (get_type v)).
Proof. intros v [<-|[<-|[]]]; constructor. Qed.
End P.
Print Assumptions C08_get_type.
Print Assumptions C09_get_type.
