(** * PropFlat: C82, inheritance can be written out (obj.rs:210-240 get, get_with_source). *)
From Verif Require Import FormatProofs ValueSpec PropData PropRound Roundtrip.
From Coq Require Import Lia.
From Coq Require String.
Import String.StringSyntax.
Open Scope N_scope.

(** ** Specification: the same data without parents.  An Obj gets the fields of its parent that it does not have itself,
    after its own; likewise for all Objs inside. *)
Fixpoint flatten (v : value) : value :=
  match v with
  | VArr (MkArr i t vs) => VArr (MkArr i t (map flatten vs))
  | VTup (MkTup i ts vs) => VTup (MkTup i ts (map flatten vs))
  | VObj o => VObj (flat o)
  | _ => v
  end
with flat (o : obj) : obj :=
  match o with
  | MkObj i ps par =>
      MkObj i (map (fun fv => match fv with (f, v) => (f, flatten v) end) ps ++
               match par with
               | Some p => filter (fun fv => negb (existsb (str_eqb (fst fv)) (map fst ps))) (obj_pairs (flat p))
               | None => []
               end) None
  end.
(** Equal answers, up to [==] and the flattening of what is found. *)
Definition same_answer (a b : option value) : Prop :=
  match a, b with Some v, Some w => value_eqb v (flatten w) = true | None, None => True | _, _ => False end.

(** ** Proof *)
Lemma assoc_app {V} f (a b : list (str * V)) : assoc f (a ++ b) = match assoc f a with Some v => Some v | None => assoc f b end.
Proof. induction a as [|[k v] a IH]; [reflexivity|]. cbn [app assoc]. destruct (str_eqb k f); auto. Qed.
Lemma assoc_own f ps : assoc f (map (fun fv => match fv with (f, v) => (f, flatten v) end) ps) = option_map flatten (assoc f ps).
Proof. induction ps as [|[k v] ps IH]; [reflexivity|]. cbn [map assoc]. destruct (str_eqb k f); auto. Qed.
Lemma existsb_in f l : existsb (str_eqb f) l = true <-> In f l.
Proof.
  rewrite existsb_exists. split; [intros (x & I & E); apply str_eqb_iff in E; subst; exact I|intros I; exists f; split; [exact I|apply str_eqb_refl]].
Qed.
Lemma assoc_rest f ks (l : list pair_t) : ~ In f ks -> assoc f (filter (fun fv => negb (existsb (str_eqb (fst fv)) ks)) l) = assoc f l.
Proof.
  intros N. induction l as [|[k v] l IH]; [reflexivity|]. cbn [filter fst assoc]. destruct (existsb (str_eqb k) ks) eqn:E; cbn [negb].
  - rewrite IH. destruct (str_eqb k f) eqn:K; [|reflexivity]. apply str_eqb_iff in K. subst. apply existsb_in in E. contradiction.
  - cbn [assoc]. destruct (str_eqb k f); auto.
Qed.
Lemma flat_parent o : obj_parent (flat o) = None.
Proof. destruct o. reflexivity. Qed.
Lemma flat_id o : obj_id (flat o) = obj_id o.
Proof. destruct o. reflexivity. Qed.
Lemma own_names ps : map fst (map (fun fv : pair_t => match fv with (f, v) => (f, flatten v) end) ps) = map fst ps.
Proof. rewrite map_map. apply map_ext. intros [f v]. reflexivity. Qed.

(** ** C82 *)
(** Reading a field, own or inherited, gives the same. *)
Theorem C82_get : forall o f, obj_get (flat o) f = option_map flatten (obj_get o f).
Proof.
  enough (H : (forall v : value, True) /\ (forall o f, obj_get (flat o) f = option_map flatten (obj_get o f))) by exact (proj2 H).
  apply value_obj_ind2; auto. intros id ps par _ IHp f. cbn [flat obj_get]. rewrite assoc_app, assoc_own.
  destruct (assoc f ps) as [v|] eqn:E; [reflexivity|]. cbn [option_map]. destruct par as [p|]; [|reflexivity].
  apply assoc_none in E. rewrite assoc_rest by exact E. rewrite <- (IHp p eq_refl f). pose proof (flat_parent p) as N.
  destruct (flat p) as [i qs q]. cbn in *. subst q. destruct (assoc f qs); reflexivity.
Qed.
(** What is found is of the same type, and is the same if it is no container; elements are found in the same places. *)
Theorem C82_values v : get_type (flatten v) = get_type v /\
  match v with
  | VArr a => exists b, flatten v = VArr b /\ arr_id b = arr_id a /\ arr_inner_type b = arr_inner_type a /\ arr_values b = map flatten (arr_values a)
  | VTup t => exists u, flatten v = VTup u /\ tup_id u = tup_id t /\ tup_types u = tup_types t /\ tup_values u = map flatten (tup_values t)
  | VObj o => flatten v = VObj (flat o) /\ obj_id (flat o) = obj_id o
  | _ => flatten v = v
  end.
Proof.
  destruct v as [|b|z|q|s|[i t vs]|[i ts vs]|o]; split; try reflexivity.
  - eexists. split; [reflexivity|]. repeat split; reflexivity.
  - eexists. split; [reflexivity|]. repeat split; reflexivity.
  - split; [reflexivity|apply flat_id].
Qed.
(** The fields of the flat Obj are the names that can be read from the other one, own fields first and in the same order. *)
Lemma in_flat o f : In f (map fst (obj_pairs (flat o))) <-> obj_get o f <> None.
Proof.
  pose proof (C82_get o f) as G. pose proof (flat_parent o) as N. destruct (flat o) as [i qs q]. cbn [obj_parent obj_pairs obj_get] in *. subst q.
  destruct (assoc f qs) as [v|] eqn:E.
  - destruct (obj_get o f); [|discriminate G]. split; [congruence|]. intros _. apply assoc_some in E as (a & b & -> & _).
    rewrite map_app. apply in_elt.
  - destruct (obj_get o f); [discriminate G|]. apply assoc_none in E. tauto.
Qed.
Theorem C82_names o : obj_parent (flat o) = None /\ (forall f, In f (map fst (obj_pairs (flat o))) <-> obj_get o f <> None) /\
  exists inherited, map fst (obj_pairs (flat o)) = map fst (obj_pairs o) ++ inherited.
Proof.
  split; [apply flat_parent|]. split; [apply in_flat|]. destruct o as [i ps par]. cbn [flat obj_pairs]. rewrite map_app, own_names. eexists. reflexivity.
Qed.
(** No Obj inside has a parent. *)
Theorem C82_no_parents : forall v p, part (VObj p) (flatten v) -> obj_parent p = None.
Proof.
  enough (H : (forall v p, part (VObj p) (flatten v) -> obj_parent p = None) /\
    (forall o p, part (VObj p) (VObj (flat o)) -> obj_parent p = None)) by exact (proj1 H).
  apply value_obj_ind2; try (intros; match goal with H : part _ _ |- _ => inversion H end; fail).
  - intros id t vs IH p H. rewrite Forall_forall in IH. cbn [flatten] in H. inversion H as [|? ? ? w I Pw| | |]; subst.
    apply in_map_iff in I as (x & <- & I). eapply IH; eassumption.
  - intros id t vs IH p H. rewrite Forall_forall in IH. cbn [flatten] in H. inversion H as [| |? ? ? w I Pw| |]; subst.
    apply in_map_iff in I as (x & <- & I). eapply IH; eassumption.
  - intros o IH p H. apply IH, H.
  - intros id ps par IH IHp p H. rewrite Forall_forall in IH. cbn [flat] in H. inversion H as [| | |? ? ? f w I Pw|]; subst; [reflexivity|].
    apply in_app_or in I as [I|I].
    + apply in_map_iff in I as ([k x] & E & I). injection E as <- <-. eapply IH; [|exact Pw]. apply in_map_iff. exists (k, x). auto.
    + destruct par as [q|]; [|destruct I]. apply filter_In in I as [I _]. eapply (IHp q eq_refl). destruct (flat q) as [j qs r] eqn:E.
      cbn [obj_pairs] in I. eapply part_field; eassumption.
Qed.

(** ** It is legal data that is not deeper, so it can be written, and what is written loads to the same answers. *)
Lemma max_le {A} (d : A -> N) l m : fold_right N.max 0 (map d l) <= m <-> forall x, In x l -> d x <= m.
Proof.
  induction l as [|x l IH]; cbn [map fold_right]; [split; [intros _ ? []|lia]|]. rewrite N.max_lub_iff, IH. split.
  - intros [H1 H2] y [<-|H]; auto.
  - intros H. split; [apply H; left; reflexivity|intros y I; apply H; right; exact I].
Qed.
Lemma flat_depth : (forall v, depth (flatten v) <= depth v) /\ (forall o, depth_obj (flat o) <= depth_obj o).
Proof.
  assert (S : forall vs, Forall (fun v => depth (flatten v) <= depth v) vs -> 1 + fold_right N.max 0 (map depth (map flatten vs)) <= 1 + fold_right N.max 0 (map depth vs)).
  { intros vs F. apply N.add_le_mono_l, max_le. intros x I. apply in_map_iff in I as (y & <- & I). rewrite Forall_forall in F. etransitivity; [apply F, I|].
    exact (proj1 (max_le depth vs _) (N.le_refl _) y I). }
  apply value_obj_ind2; try (intros; cbn; lia).
  - intros id t vs IH. apply (S vs IH).
  - intros id t vs IH. apply (S vs IH).
  - intros id ps par IH IHp. rewrite Forall_forall in IH. cbn [flat depth_obj]. apply N.add_le_mono_l. apply N.max_lub; [lia|]. apply max_le. intros [f v] I.
    apply in_app_or in I as [I|I].
    + apply in_map_iff in I as ([k x] & E & I). injection E as <- <-. etransitivity; [apply IH, in_map_iff; exists (k, x); auto|].
      etransitivity; [|apply N.le_max_r]. exact (proj1 (max_le (fun p : pair_t => match p with (f, v) => depth v end) ps _) (N.le_refl _) (k, x) I).
    + destruct par as [q|]; [|destruct I]. apply filter_In in I as [I _]. etransitivity; [|apply N.le_max_l]. etransitivity; [|apply (IHp q eq_refl)].
      destruct (flat q) as [j qs r]. cbn [obj_pairs] in I. cbn [depth_obj].
      pose proof (proj1 (max_le (fun p : str * value => match p with (f, v) => depth v end) qs _) (N.le_refl _) (f, v) I) as H. cbv beta iota in H. change pair_t with (str * value)%type in *. etransitivity; [exact H|]. etransitivity; [apply (N.le_max_r (match r with Some p => depth_obj p | None => 0 end))|apply N.le_add_l].
Qed.
Section S.
Context `{U : Unicode}.
Lemma flat_wf : (forall v, wf_value good_names v -> wf_value good_names (flatten v)) /\ (forall o, wf_obj good_names o -> wf_obj good_names (flat o)).
Proof.
  assert (T : forall vs, map get_type (map flatten vs) = map get_type vs).
  { intros vs. rewrite map_map. apply map_ext. intros v. apply C82_values. }
  assert (F : forall vs, Forall (fun v => wf_value good_names v -> wf_value good_names (flatten v)) vs -> Forall (wf_value good_names) vs -> Forall (wf_value good_names) (map flatten vs)).
  { intros vs IH W. rewrite Forall_forall in *. intros x I. apply in_map_iff in I as (y & <- & I). auto. }
  apply value_obj_ind2; auto.
  - intros id t vs IH W. inversion_clear W. cbn [flatten]. constructor; [auto|]. rewrite T. assumption.
  - intros id ts vs IH W. inversion_clear W as [| | | | | |? ? ? W1 W2|]. cbn [flatten]. constructor; [auto|]. rewrite T. assumption.
  - intros o IH W. inversion_clear W. cbn [flatten]. constructor. auto.
  - intros id ps par IH IHp W. inversion_clear W as [? ? ? [Nd Lg] Wv Wp]. cbn [flat]. constructor; [|rewrite map_app; apply Forall_app; split|discriminate].
    + unfold good_names. rewrite map_app, own_names. destruct par as [q|]; [|rewrite app_nil_r; split; assumption].
      specialize (IHp q eq_refl (Wp q eq_refl)). destruct (flat q) as [j qs r]. inversion_clear IHp as [? ? ? [Ndq Lgq] _ _]. cbn [obj_pairs].
      set (l := filter _ qs). assert (I : forall f, In f (map fst l) -> In f (map fst qs) /\ ~ In f (map fst ps)).
      { intros f H. apply in_map_iff in H as ([k v] & <- & H). apply filter_In in H as [H K]. cbn [fst] in *. split; [apply in_map_iff; exists (k, v); auto|].
        intros X. apply existsb_in in X. rewrite X in K. discriminate. }
      split.
      * assert (Ndl : NoDup (map fst l)).
        { unfold l. clear -Ndq. induction qs as [|[k v] qs IH]; [constructor|]. cbn [map fst] in Ndq. inversion_clear Ndq as [|? ? N1 N2]. cbn [filter].
          destruct (negb _); [|auto]. cbn [map fst]. constructor; [|auto]. intros H. apply N1. apply in_map_iff in H as (x & E & H). apply filter_In in H as [H _].
          apply in_map_iff. exists x. auto. }
        clearbody l. clear -Nd Ndl I. induction (map fst ps) as [|k ks IH]; [exact Ndl|]. inversion_clear Nd as [|? ? N1 N2]. cbn [app]. constructor.
        -- intros H. apply in_app_or in H as [H|H]; [contradiction|]. apply I in H as [_ H]. apply H. left. reflexivity.
        -- apply IH; [exact N2|]. intros f H. apply I in H as [H1 H2]. split; [exact H1|]. intros X. apply H2. right. exact X.
      * apply Forall_app. split; [exact Lg|]. apply Forall_forall. intros f H. apply I in H as [H _]. rewrite Forall_forall in Lgq. auto.
    + rewrite map_map. rewrite Forall_forall in *. intros x I. apply in_map_iff in I as ([k v] & <- & I). apply IH; [apply in_map_iff; exists (k, v); auto|].
      apply Wv, in_map_iff. exists (k, v). auto.
    + destruct par as [q|]; [|constructor]. specialize (IHp q eq_refl (Wp q eq_refl)). destruct (flat q) as [j qs r]. inversion_clear IHp as [? ? ? _ Wq _]. cbn [obj_pairs].
      rewrite Forall_forall in *. intros x I. apply in_map_iff in I as (y & <- & I). apply filter_In in I as [I _]. apply Wq, in_map_iff. exists y. auto.
Qed.
Theorem C82_legal o : wf_obj good_names o -> wf_obj good_names (flat o) /\ depth_obj (flat o) <= depth_obj o.
Proof. intros W. split; [apply flat_wf, W|apply flat_depth]. Qed.
Lemma assoc_eqb f : forall ps qs, list_eqb pair_eqb ps qs = true ->
  match assoc f ps, assoc f qs with Some v, Some w => value_eqb v w = true | None, None => True | _, _ => False end.
Proof.
  induction ps as [|[k v] ps IH]; intros [|[l w] qs] E; cbn [list_eqb] in E; try discriminate; [exact I|].
  apply andb_true_iff in E as [E1 E2]. unfold pair_eqb in E1. apply andb_true_iff in E1 as [E0 E1]. apply str_eqb_iff in E0. subst l.
  cbn [assoc]. destruct (str_eqb k f); [exact E1|apply IH, E2].
Qed.
Theorem C82_written fs g o : wf_obj good_names o -> depth_obj o <= 64 ->
  exists text o', write_to_string (flat o) = Some text /\ from_str fs g text = Some (OOk o') /\ obj_parent o' = None /\
    forall f, same_answer (obj_get o' f) (obj_get o f).
Proof.
  intros W D. destruct (C82_legal o W) as [Wf Df]. destruct (C01_write_load fs g (flat o) Wf ltac:(lia)) as (text & o' & E & L & Q).
  exists text, o'. split; [exact E|]. split; [exact L|].
  pose proof (flat_parent o) as N. pose proof (C82_get o) as G. destruct (flat o) as [i qs q], o' as [i' qs' q']. cbn [obj_parent] in *. subst q.
  rewrite obj_eqb_unfold in Q. destruct q' as [q'|]; [discriminate|]. split; [reflexivity|]. intros f. specialize (G f). cbn [obj_get] in *.
  pose proof (assoc_eqb f _ _ Q) as H. unfold same_answer. destruct (assoc f qs) as [w|], (assoc f qs') as [v|]; destruct (obj_get o f); cbn in *; try discriminate; try contradiction; auto.
  injection G as ->. exact H.
Qed.
End S.

(** ** What does tell them apart: [==], [len] and [contains], which do not look into parents. *)
Definition ex_parent : obj := MkObj 2 [(lit "b", VInt 2); (lit "c", VObj (MkObj 4 [(lit "x", VInt 9)] (Some (MkObj 5 [(lit "y", VInt 8)] None))))] None.
Definition ex_child : obj := MkObj 1 [(lit "a", VInt 1); (lit "b", VStr (lit "t"))] (Some ex_parent).
Theorem C82_told_apart : exists o, obj_eqb (flat o) o = false /\ obj_len (flat o) <> obj_len o /\
  exists f, obj_contains (flat o) f = true /\ obj_contains o f = false.
Proof. exists ex_child. repeat split; [discriminate|]. exists (lit "c"). split; reflexivity. Qed.

(** ** A concrete case *)
Example C82_ex : map fst (obj_pairs (flat ex_child)) = [lit "a"; lit "b"; lit "c"] /\ obj_get (flat ex_child) (lit "b") = Some (VStr (lit "t")) /\
  match obj_get (flat ex_child) (lit "c") with Some (VObj c) => map fst (obj_pairs c) = [lit "x"; lit "y"] | _ => False end.
Proof. vm_compute. auto. Qed.
Ltac legal := eexists _, _; split; [reflexivity|]; split; [left; reflexivity|]; split;
  [repeat (constructor; [first [left; reflexivity|right; left; reflexivity|right; right; reflexivity]|]); constructor
  |cbn; intros H; repeat destruct H as [H|H]; try discriminate H; exact H].
Example C82_ex_legal `{U : Unicode} : wf_obj good_names ex_child /\ (depth_obj ex_child <= 64)%N.
Proof.
  split; [|cbv; discriminate].
  repeat match goal with
  | |- wf_obj _ _ => constructor
  | |- wf_value _ _ => constructor
  | |- good_names _ => split
  | |- Forall _ _ => cbn; constructor
  | |- NoDup _ => cbn; constructor
  | |- ~ In _ _ => cbn; intuition discriminate
  | |- legal_field _ => legal
  | |- forall p, Some _ = Some p -> _ => intros ? [= <-]
  | |- forall p, None = Some p -> _ => discriminate
  end.
Qed.
Print Assumptions C82_get.
Print Assumptions C82_values.
Print Assumptions C82_names.
Print Assumptions C82_no_parents.
Print Assumptions C82_legal.
Print Assumptions C82_written.
Print Assumptions C82_told_apart.
