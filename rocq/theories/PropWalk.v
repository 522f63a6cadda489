(** * PropWalk: the call stack of writing, comparing and looking up (C59). *)
From Verif Require Export Walk.
From Verif Require Import Roundtrip PropLoad PropRound LevelsProofs.
From Coq Require String.
Import String.StringSyntax.
Open Scope N_scope.

(** ** Depths *)
Definition dvs (vs : list value) : N := fold_right N.max 0 (map depth vs).
Lemma dvs_in vs v : In v vs -> depth v <= dvs vs.
Proof. intros H. unfold dvs. apply max_in. apply in_map. exact H. Qed.
Definition dps (ps : list pair_t) : N := fold_right N.max 0 (map (fun p => match p with (f, v) => depth v end) ps).
Lemma dps_in ps f v : In (f, v) ps -> depth v <= dps ps.
Proof. intros H. unfold dps. apply max_in. apply (in_map (fun p : pair_t => match p with (f, v) => depth v end)) in H. exact H. Qed.
Lemma dvs_le vs n : (forall v, In v vs -> depth v <= n) -> dvs vs <= n.
Proof. unfold dvs. induction vs as [|v vs IH]; cbn [map fold_right]; intros H; [lia|]. pose proof (H v (or_introl eq_refl)). specialize (IH (fun x I => H x (or_intror I))). lia. Qed.
Lemma dps_le ps n : (forall f v, In (f, v) ps -> depth v <= n) -> dps ps <= n.
Proof. unfold dps. induction ps as [|[f v] vs IH]; cbn [map fold_right]; intros H; [lia|]. pose proof (H f v (or_introl eq_refl)). specialize (IH (fun x w I => H x w (or_intror I))). lia. Qed.
Lemma depth_arr_eq id t vs : depth (VArr (MkArr id t vs)) = 1 + dvs vs. Proof. reflexivity. Qed.
Lemma depth_tup_eq id t vs : depth (VTup (MkTup id t vs)) = 1 + dvs vs. Proof. reflexivity. Qed.
Lemma depth_obj_eq id ps par : depth_obj (MkObj id ps par) = 1 + N.max (match par with Some p => depth_obj p | None => 0 end) (dps ps).
Proof. reflexivity. Qed.

(** ** Formatting *)
Definition le {A} (a b : option A) : Prop := a = None \/ a = b.
Lemma le_refl {A} (a : option A) : le a a. Proof. right; auto. Qed.
Lemma le_bind {A B} (a b : option A) (f g : A -> option B) : le a b -> (forall x, le (f x) (g x)) -> le (opt_bind a f) (opt_bind b g).
Proof. intros [->| ->] H; [left; reflexivity|]. destruct b; cbn; auto using le_refl. Qed.
Lemma le_concat {A} (f g : A -> option str) l : (forall x, le (f x) (g x)) -> le (concat_opt f l) (concat_opt g l).
Proof.
  intros H. induction l as [|x l IH]; cbn; [apply le_refl|]. destruct (H x) as [->| ->]; [left; auto|].
  destruct (g x); [|left; auto]. destruct IH as [->| ->]; [left; auto|apply le_refl].
Qed.
Lemma concat_ext {A} (f g : A -> option str) l : (forall x, In x l -> f x = g x) -> concat_opt f l = concat_opt g l.
Proof. induction l as [|x l IH]; cbn; intros H; auto. rewrite (H x), IH; auto. Qed.
Lemma concat_some {A} (f : A -> option str) l t : concat_opt f l = Some t -> forall x, In x l -> exists u, f x = Some u.
Proof.
  revert t. induction l as [|y l IH]; cbn; intros t H x I; [contradiction|].
  destruct (f y) eqn:E; [|discriminate]. destruct (concat_opt f l) eqn:E2; [|discriminate]. destruct I as [->|I]; eauto.
Qed.

Lemma format_le k : (forall ind v, le (value_format_within k ind v) (format_value true ind v)) /\
  (forall full ind a, le (arr_format_within k full ind a) (format_arr full ind a)) /\
  (forall full ind a, le (tup_format_within k full ind a) (format_tup full ind a)) /\
  (forall full ind o, le (obj_format_within k full ind o) (format_obj full ind o)).
Proof.
  induction k as [|k (H1 & H2 & H3 & H4)]; [repeat split; intros; left; reflexivity|].
  assert (C : forall vs ind, le (concat_opt (fun v => opt_bind (value_format_within k (ind + INDENT_STEP) v) (fun f => Some (indent ind ++ f ++ [c_nl]))) vs)
                                (concat_opt (fun v => opt_bind (format_value true (ind + INDENT_STEP) v) (fun f => Some (indent ind ++ f ++ [c_nl]))) vs)).
  { intros. apply le_concat. intros x. apply le_bind; auto using le_refl. }
  split; [|split; [|split]].
  - intros ind v. destruct v as [|[]| | | |a|a|o]; cbn; try apply le_refl; auto.
  - intros full ind [id t vs]. cbn [arr_format_within format_arr]. destruct vs as [|v [|w vs]]; try apply le_refl.
    + apply le_bind; auto using le_refl.
    + apply le_bind; [apply C|]. auto using le_refl.
  - intros full ind [id t vs]. cbn [tup_format_within format_tup]. destruct vs as [|v [|w vs]]; try apply le_refl.
    + apply le_bind; auto using le_refl.
    + apply le_bind; [apply C|]. auto using le_refl.
  - intros full ind [id ps par]. cbn [obj_format_within format_obj].
    assert (P : le (opt_bind (match par with
                    | Some p => opt_bind (obj_format_within k true (ind + INDENT_STEP) p) (fun f => Some (indent ind ++ lit "^: " ++ f ++ [c_nl]))
                    | None => Some [] end) (fun parent_text =>
          opt_bind (concat_opt (fun p => match p with (field, v) => opt_bind (value_format_within k (ind + INDENT_STEP) v) (fun f =>
                Some (indent ind ++ field ++ lit ": " ++ f ++ [c_nl])) end) ps) (fun body =>
          let s := (if full then lit "{" ++ [c_nl] else []) ++ parent_text ++ body in
          if full then opt_bind (usub ind INDENT_STEP) (fun actual => Some (s ++ indent actual ++ lit "}")) else Some s)))
       (opt_bind (match par with
                    | Some p => opt_bind (format_obj true (ind + INDENT_STEP) p) (fun f => Some (indent ind ++ lit "^: " ++ f ++ [c_nl]))
                    | None => Some [] end) (fun parent_text =>
          opt_bind (concat_opt (fun p => match p with (field, v) => opt_bind (format_value true (ind + INDENT_STEP) v) (fun f =>
                Some (indent ind ++ field ++ lit ": " ++ f ++ [c_nl])) end) ps) (fun body =>
          let s := (if full then lit "{" ++ [c_nl] else []) ++ parent_text ++ body in
          if full then opt_bind (usub ind INDENT_STEP) (fun actual => Some (s ++ indent actual ++ lit "}")) else Some s)))).
    { apply le_bind.
      - destruct par as [p|]; [|apply le_refl]. apply le_bind; [apply H4|]. intros; apply le_refl.
      - intros x. apply le_bind; [|intros; apply le_refl]. apply le_concat. intros [f v]. apply le_bind; [apply H1|]. intros; apply le_refl. }
    destruct ps as [|p ps]; [destruct par; [exact P|apply le_refl]|exact P].
Qed.

Lemma format_enough k : (forall ind v, 2 * depth v + 1 <= N.of_nat k -> value_format_within k ind v = format_value true ind v) /\
  (forall full ind a, 2 * depth (VArr a) <= N.of_nat k -> arr_format_within k full ind a = format_arr full ind a) /\
  (forall full ind a, 2 * depth (VTup a) <= N.of_nat k -> tup_format_within k full ind a = format_tup full ind a) /\
  (forall full ind o, 2 * depth_obj o <= N.of_nat k -> obj_format_within k full ind o = format_obj full ind o).
Proof.
  induction k as [|k (H1 & H2 & H3 & H4)].
  { split; [intros; lia|]. repeat split.
    - intros full ind [id t vs]. rewrite depth_arr_eq. lia.
    - intros full ind [id t vs]. rewrite depth_tup_eq. lia.
    - intros full ind [id ps par]. rewrite depth_obj_eq. lia. }
  assert (C : forall vs ind, 2 * dvs vs + 1 <= N.of_nat k -> concat_opt (fun v => opt_bind (value_format_within k (ind + INDENT_STEP) v) (fun f => Some (indent ind ++ f ++ [c_nl]))) vs =
                                concat_opt (fun v => opt_bind (format_value true (ind + INDENT_STEP) v) (fun f => Some (indent ind ++ f ++ [c_nl]))) vs).
  { intros vs ind L. apply concat_ext. intros x I. apply dvs_in in I. rewrite H1 by lia. reflexivity. }
  split; [|split; [|split]].
  - intros ind v L. destruct v as [|[]| | | |[id t vs]|[id t vs]|o]; try reflexivity.
    + rewrite depth_arr_eq in L. apply H2. rewrite depth_arr_eq. lia.
    + rewrite depth_tup_eq in L. apply H3. rewrite depth_tup_eq. lia.
    + apply H4. cbn [depth] in L. lia.
  - intros full ind [id t vs] L. rewrite depth_arr_eq in L. cbn [arr_format_within format_arr]. destruct vs as [|v [|w vs]]; try reflexivity.
    + rewrite H1; [reflexivity|]. pose proof (dvs_in [v] v (or_introl eq_refl)). lia.
    + rewrite C by lia. reflexivity.
  - intros full ind [id t vs] L. rewrite depth_tup_eq in L. cbn [tup_format_within format_tup]. destruct vs as [|v [|w vs]]; try reflexivity.
    + rewrite H1; [reflexivity|]. pose proof (dvs_in [v] v (or_introl eq_refl)). lia.
    + rewrite C by lia. reflexivity.
  - intros full ind [id ps par] L. rewrite depth_obj_eq in L. cbn [obj_format_within format_obj].
    assert (E1 : match par with
                    | Some p => opt_bind (obj_format_within k true (ind + INDENT_STEP) p) (fun f => Some (indent ind ++ lit "^: " ++ f ++ [c_nl]))
                    | None => Some [] end = match par with
                    | Some p => opt_bind (format_obj true (ind + INDENT_STEP) p) (fun f => Some (indent ind ++ lit "^: " ++ f ++ [c_nl]))
                    | None => Some [] end).
    { destruct par as [p|]; [|reflexivity]. rewrite H4 by lia. reflexivity. }
    assert (E2 : concat_opt (fun p => match p with (field, v) => opt_bind (value_format_within k (ind + INDENT_STEP) v) (fun f =>
                Some (indent ind ++ field ++ lit ": " ++ f ++ [c_nl])) end) ps = concat_opt (fun p => match p with (field, v) => opt_bind (format_value true (ind + INDENT_STEP) v) (fun f =>
                Some (indent ind ++ field ++ lit ": " ++ f ++ [c_nl])) end) ps).
    { apply concat_ext. intros [f v] I. apply dps_in in I. rewrite H1 by lia. reflexivity. }
    rewrite E1, E2. reflexivity.
Qed.

Lemma bind_some {A B} (a : option A) (f : A -> option B) b : opt_bind a f = Some b -> exists x, a = Some x /\ f x = Some b.
Proof. destruct a; cbn; [eauto|discriminate]. Qed.
Lemma format_needs k : (forall ind v t, value_format_within k ind v = Some t -> depth v + 1 <= N.of_nat k) /\
  (forall full ind a t, arr_format_within k full ind a = Some t -> depth (VArr a) <= N.of_nat k) /\
  (forall full ind a t, tup_format_within k full ind a = Some t -> depth (VTup a) <= N.of_nat k) /\
  (forall full ind o t, obj_format_within k full ind o = Some t -> depth_obj o <= N.of_nat k).
Proof.
  induction k as [|k (H1 & H2 & H3 & H4)]; [repeat split; discriminate|].
  assert (C : forall vs ind t, concat_opt (fun v => opt_bind (value_format_within k (ind + INDENT_STEP) v) (fun f => Some (indent ind ++ f ++ [c_nl]))) vs = Some t ->
     dvs vs <= N.of_nat k).
  { intros vs ind t E. apply dvs_le. intros v I. destruct (concat_some _ _ _ E v I) as (u & X). apply bind_some in X as (y & X & _). apply H1 in X. lia. }
  split; [|split; [|split]].
  - intros ind v t E. destruct v as [|[]| | | |a|a|o]; cbn [value_format_within] in E; try (cbn; lia).
    + apply H2 in E. lia.
    + apply H3 in E. lia.
    + apply H4 in E. cbn [depth]. lia.
  - intros full ind [id t vs] u E. rewrite depth_arr_eq. cbn [arr_format_within] in E. destruct vs as [|v [|w vs]]; [cbn; lia| |].
    + apply bind_some in E as (x & E & _). apply H1 in E. unfold dvs. cbn [map fold_right]. lia.
    + apply bind_some in E as (x & E & _). apply C in E. lia.
  - intros full ind [id t vs] u E. rewrite depth_tup_eq. cbn [tup_format_within] in E. destruct vs as [|v [|w vs]]; [cbn; lia| |].
    + apply bind_some in E as (x & E & _). apply H1 in E. unfold dvs. cbn [map fold_right]. lia.
    + apply bind_some in E as (x & E & _). apply C in E. lia.
  - intros full ind [id ps par] u E. rewrite depth_obj_eq. cbn [obj_format_within] in E.
    assert (P : (match par with Some p => depth_obj p | None => 0 end <= N.of_nat k /\ dps ps <= N.of_nat k)).
    { destruct ps as [|p ps]; [destruct par as [q|]; [|cbn; lia]|];
        apply bind_some in E as (x & E & E2); apply bind_some in E2 as (y & E2 & _); split;
        try (destruct par as [q0|]; [|lia]; apply bind_some in E as (z & E & _); apply H4 in E; lia);
        try (apply bind_some in E as (z & E & _); apply H4 in E; lia);
        apply dps_le; intros f v I; destruct (concat_some _ _ _ E2 (f, v) I) as (m & X); apply bind_some in X as (z & X & _); apply H1 in X; lia. }
    lia.
Qed.

(** ** Comparing *)
Lemma all_le {A} (f : A -> A -> option bool) g l : forall m, length l = length m -> (forall x y, In x l -> le (f x y) (Some (g x y))) -> le (all_eq f l m) (Some (list_eqb g l m)).
Proof.
  induction l as [|x l IH]; intros [|y m] L H; cbn in *; try discriminate; [apply le_refl|].
  destruct (H x y (or_introl eq_refl)) as [->| ->]; [left; reflexivity|]. destruct (g x y); cbn [andb]; [|apply le_refl]. apply IH; auto.
Qed.
Lemma list_eqb_length {A} (g : A -> A -> bool) l : forall m, length l <> length m -> list_eqb g l m = false.
Proof. induction l as [|x l IH]; intros [|y m] L; cbn in *; auto; try congruence. rewrite IH by congruence. apply andb_false_r. Qed.
Lemma vec_le {A} (f : A -> A -> option bool) g l m : (forall x y, In x l -> le (f x y) (Some (g x y))) -> le (vec_eq f l m) (Some (list_eqb g l m)).
Proof.
  intros H. unfold vec_eq. destruct (Nat.eqb_spec (length l) (length m)) as [E|E]; cbn [negb].
  - apply all_le; auto.
  - rewrite list_eqb_length by auto. apply le_refl.
Qed.
Lemma vec_enough {A} (f : A -> A -> option bool) g l m : (forall x y, In x l -> f x y = Some (g x y)) -> vec_eq f l m = Some (list_eqb g l m).
Proof.
  intros H. unfold vec_eq. destruct (Nat.eqb_spec (length l) (length m)) as [E|E]; cbn [negb].
  - revert m E. induction l as [|x l IH]; intros [|y m] L; cbn in *; try discriminate; auto.
    rewrite H by auto. destruct (g x y); cbn [andb]; auto.
  - rewrite list_eqb_length by auto. reflexivity.
Qed.
Lemma vec_true {A} (f : A -> A -> option bool) l m : vec_eq f l m = Some true -> forall x, In x l -> exists y, f x y = Some true.
Proof.
  unfold vec_eq. destruct (Nat.eqb_spec (length l) (length m)) as [E|E]; cbn [negb]; [|discriminate].
  revert m E. induction l as [|x l IH]; intros [|y m] L H z I; cbn in *; try discriminate; try contradiction.
  destruct (f x y) as [[]|] eqn:F; try discriminate. destruct I as [->|I]; eauto.
Qed.

Lemma ty_eq_le k : forall a b, le (ty_eq_within k a b) (Some (ty_eqb a b)).
Proof.
  induction k as [|k IH]; intros a b; [left; reflexivity|]. cbn [ty_eq_within].
  destruct b; try apply le_refl; destruct a; try apply le_refl; cbn [ty_eqb]; auto. apply vec_le. auto.
Qed.
Lemma ty_eq_enough k : forall a b, nested a + 1 <= N.of_nat k -> ty_eq_within k a b = Some (ty_eqb a b).
Proof.
  induction k as [|k IH]; intros a b L; [lia|]. cbn [ty_eq_within].
  destruct b; try reflexivity; destruct a as [| | | | | |ta|la|]; try reflexivity; cbn [ty_eqb]; cbn [nested] in L.
  - apply IH. lia.
  - apply vec_enough. intros x y I. apply IH. pose proof (max_in _ _ (in_map nested _ _ I)). lia.
Qed.

Lemma eq_le k : (forall v w, le (value_eq_within k v w) (Some (value_eqb v w))) /\
  (forall a b, le (arr_eq_within k a b) (Some (arr_eqb a b))) /\
  (forall a b, le (tup_eq_within k a b) (Some (tup_eqb a b))) /\
  (forall a b, le (obj_eq_within k a b) (Some (obj_eqb a b))).
Proof.
  induction k as [|k (H1 & H2 & H3 & H4)]; [repeat split; intros; left; reflexivity|]. split; [|split; [|split]].
  - intros v w. destruct v, w; cbn; auto using le_refl.
  - intros [i1 t1 v1] [i2 t2 v2]. cbn [arr_eq_within arr_eqb]. destruct (ty_eq_le k t1 t2) as [->| ->]; [left; auto|].
    destruct (ty_eqb t1 t2); cbn [negb]; [|apply le_refl]. apply vec_le; auto.
  - intros [i1 t1 v1] [i2 t2 v2]. cbn [tup_eq_within tup_eqb].
    destruct (vec_le (ty_eq_within k) ty_eqb t1 t2 (fun x y _ => ty_eq_le k x y)) as [->| ->]; [left; auto|].
    destruct (list_eqb ty_eqb t1 t2); cbn [negb]; [|apply le_refl]. apply vec_le; auto.
  - intros [i1 p1 q1] [i2 p2 q2]. cbn [obj_eq_within obj_eqb]. cbv zeta.
    assert (P : le (vec_eq (fun x y : pair_t => match x, y with (f, v), (g, w) => if str_eqb f g then value_eq_within k v w else Some false end) p1 p2)
                   (Some (list_eqb (fun x y : pair_t => match x, y with (f, v), (g, w) => str_eqb f g && value_eqb v w end) p1 p2))).
    { apply vec_le. intros [f v] [g w] _. destruct (str_eqb f g); cbn [andb]; [apply H1|apply le_refl]. }
    destruct q1 as [q1|], q2 as [q2|]; try apply le_refl; [|exact P].
    destruct (H4 q1 q2) as [->| ->]; [left; auto|]. destruct (obj_eqb q1 q2); cbn [negb]; [exact P|apply le_refl].
Qed.

Section P.
Context `{U : Unicode}.
Notation wfv := (wf_value any_names).
Notation wfo := (wf_obj any_names).

Lemma lub_nested ts t : lub ts = Some t -> nested t <= fold_right N.max 0 (map nested ts).
Proof.
  enough (G : forall ts u t, fold_left (fun o t => match o with
      | Some u => match most_specific u t with Some (x, _) => Some x | None => None end
      | None => None end) ts (Some u) = Some t -> nested t <= N.max (nested u) (fold_right N.max 0 (map nested ts))).
  { intros H. apply G in H. cbn [nested] in H. lia. }
  clear. induction ts as [|x ts IH]; cbn [fold_left map fold_right]; intros u t H.
  - inversion H; subst. lia.
  - destruct (most_specific u x) as [[y b]|] eqn:E.
    + apply IH in H. apply specific_nested in E. lia.
    + exfalso. clear - H. induction ts; cbn in H; [discriminate|auto].
Qed.
Lemma levels_dvs vs : (forall v, In v vs -> levels v <= depth v) -> levels_all vs <= dvs vs.
Proof.
  unfold levels_all, dvs. induction vs as [|v vs IH]; cbn [map fold_right]; intros H; [lia|].
  pose proof (H v (or_introl eq_refl)). specialize (IH (fun x I => H x (or_intror I))). lia.
Qed.
Lemma arr_levels vs t : least_spec_all (map get_type vs) t -> nested t <= levels_all vs.
Proof. intros L. apply lub_spec in L. apply lub_nested in L. rewrite map_map in L. exact L. Qed.
(** the type of a well-formed value is at most as deep as the value *)
Lemma levels_depth : forall v, wfv v -> levels v <= depth v.
Proof.
  apply (value_ind2 (fun v => wfv v -> levels v <= depth v) (fun o => True)); auto.
  1-5: intros; unfold levels; cbn; lia.
  - intros id t vs IH W. inversion W as [| | | | |? ? ? F L| |]; subst. rewrite depth_arr_eq. unfold levels. cbn [get_type nested arr_inner_type].
    assert (X : levels_all vs <= dvs vs).
    { apply levels_dvs. intros v I. rewrite Forall_forall in IH, F. auto. }
    pose proof (arr_levels _ _ L). lia.
  - intros id t vs IH W. inversion W as [| | | | | |? ? ? F L|]; subst. rewrite depth_tup_eq. unfold levels. cbn [get_type nested tup_types].
    assert (X : levels_all vs <= dvs vs).
    { apply levels_dvs. intros v I. rewrite Forall_forall in IH, F. auto. }
    rewrite map_map. unfold levels_all in X. change (map (fun x => nested (get_type x)) vs) with (map levels vs). lia.
  - intros o _ W. unfold levels. cbn. lia.
Qed.

Lemma eq_enough k : (forall v w, wfv v -> 2 * depth v + 1 <= N.of_nat k -> value_eq_within k v w = Some (value_eqb v w)) /\
  (forall a b, wfv (VArr a) -> 2 * depth (VArr a) <= N.of_nat k -> arr_eq_within k a b = Some (arr_eqb a b)) /\
  (forall a b, wfv (VTup a) -> 2 * depth (VTup a) <= N.of_nat k -> tup_eq_within k a b = Some (tup_eqb a b)) /\
  (forall a b, wfo a -> 2 * depth_obj a <= N.of_nat k -> obj_eq_within k a b = Some (obj_eqb a b)).
Proof.
  induction k as [|k (H1 & H2 & H3 & H4)].
  { split; [intros; lia|]. repeat split.
    - intros [id t vs] b _. rewrite depth_arr_eq. lia.
    - intros [id t vs] b _. rewrite depth_tup_eq. lia.
    - intros [id ps par] b _. rewrite depth_obj_eq. lia. }
  split; [|split; [|split]].
  - intros v w W L. destruct v as [| | | | |[id t vs]|[id t vs]|o], w; try reflexivity; cbn [value_eq_within value_eqb].
    + apply H2; auto. rewrite depth_arr_eq in *. lia.
    + apply H3; auto. rewrite depth_tup_eq in *. lia.
    + inversion W; subst. cbn [depth] in L. apply H4; auto. lia.
  - intros [i1 t1 v1] [i2 t2 v2] W L. rewrite depth_arr_eq in L. inversion W as [| | | | |? ? ? F Le| |]; subst. cbn [arr_eq_within arr_eqb].
    assert (X : levels_all v1 <= dvs v1).
    { apply levels_dvs. intros v I. rewrite Forall_forall in F. apply levels_depth; auto. }
    pose proof (arr_levels _ _ Le). rewrite ty_eq_enough by lia. destruct (ty_eqb t1 t2); cbn [negb]; [|reflexivity].
    apply vec_enough. intros x y I. rewrite Forall_forall in F. pose proof (dvs_in _ _ I). apply H1; auto. lia.
  - intros [i1 t1 v1] [i2 t2 v2] W L. rewrite depth_tup_eq in L. inversion W as [| | | | | |? ? ? F Le|]; subst. cbn [tup_eq_within tup_eqb].
    rewrite Forall_forall in F.
    rewrite (vec_enough (ty_eq_within k) ty_eqb).
    + destruct (list_eqb ty_eqb _ t2); cbn [negb]; [|reflexivity].
      apply vec_enough. intros x y I. pose proof (dvs_in _ _ I). apply H1; auto. lia.
    + intros x y I. apply in_map_iff in I as (v & <- & I). apply ty_eq_enough. pose proof (dvs_in _ _ I). pose proof (levels_depth v (F _ I)) as Z. unfold levels in Z. lia.
  - intros [i1 p1 q1] [i2 p2 q2] W L. rewrite depth_obj_eq in L. inversion W as [? ? ? _ F Pq]; subst. cbn [obj_eq_within obj_eqb]. cbv zeta.
    assert (P : vec_eq (fun x y : pair_t => match x, y with (f, v), (g, w) => if str_eqb f g then value_eq_within k v w else Some false end) p1 p2 =
                   Some (list_eqb (fun x y : pair_t => match x, y with (f, v), (g, w) => str_eqb f g && value_eqb v w end) p1 p2)).
    { apply vec_enough. intros [f v] [g w] I. destruct (str_eqb f g); cbn [andb]; [|reflexivity]. pose proof (dps_in _ _ _ I).
      apply H1; [|lia]. rewrite Forall_forall in F. apply F. apply in_map_iff. exists (f, v). auto. }
    destruct q1 as [q1|], q2 as [q2|]; try reflexivity; [|exact P].
    rewrite H4 by (auto; lia). destruct (obj_eqb q1 q2); [exact P|reflexivity].
Qed.
Lemma eq_needs k : (forall v w, value_eq_within k v w = Some true -> depth v + 1 <= N.of_nat k) /\
  (forall a b, arr_eq_within k a b = Some true -> depth (VArr a) <= N.of_nat k) /\
  (forall a b, tup_eq_within k a b = Some true -> depth (VTup a) <= N.of_nat k) /\
  (forall a b, obj_eq_within k a b = Some true -> depth_obj a <= N.of_nat k).
Proof.
  induction k as [|k (H1 & H2 & H3 & H4)]; [repeat split; discriminate|].
  assert (C : forall l m, vec_eq (value_eq_within k) l m = Some true -> dvs l <= N.of_nat k).
  { intros l m E. apply dvs_le. intros v I. destruct (vec_true _ _ _ E v I) as (y & X). apply H1 in X. lia. }
  split; [|split; [|split]].
  - intros v w E. destruct v as [| | | | |a|a|o], w; cbn [value_eq_within] in E; try discriminate E; try (cbn; lia).
    + apply H2 in E. lia.
    + apply H3 in E. lia.
    + apply H4 in E. cbn [depth]. lia.
  - intros [i1 t1 v1] [i2 t2 v2] E. rewrite depth_arr_eq. cbn [arr_eq_within] in E. destruct (ty_eq_within k t1 t2) as [[]|]; try discriminate. apply C in E. lia.
  - intros [i1 t1 v1] [i2 t2 v2] E. rewrite depth_tup_eq. cbn [tup_eq_within] in E. destruct (vec_eq (ty_eq_within k) t1 t2) as [[]|]; try discriminate. apply C in E. lia.
  - intros [i1 p1 q1] [i2 p2 q2] E. rewrite depth_obj_eq. cbn [obj_eq_within] in E. cbv zeta in E.
    assert (P : vec_eq (fun x y : pair_t => match x, y with (f, v), (g, w) => if str_eqb f g then value_eq_within k v w else Some false end) p1 p2 = Some true -> dps p1 <= N.of_nat k).
    { intros X. apply dps_le. intros f v I. destruct (vec_true _ _ _ X (f, v) I) as ([g w] & Y). destruct (str_eqb f g); [|discriminate]. apply H1 in Y. lia. }
    destruct q1 as [q1|], q2 as [q2|]; try discriminate E.
    + destruct (obj_eq_within k q1 q2) as [[]|] eqn:Q; try discriminate. apply H4 in Q. specialize (P E). lia.
    + specialize (P E). lia.
Qed.

(** ** The theorems *)
(** With twice as many frames as the value is deep (and one), writing gives the text; with less than the
    depth there is no text. *)
Theorem C59_write frames o :
  (2 * depth_obj o <= N.of_nat frames -> write_within frames o = write_to_string o /\ obj_display_within frames o = obj_display o) /\
  (forall t, write_within frames o = Some t \/ obj_display_within frames o = Some t -> depth_obj o <= N.of_nat frames).
Proof.
  split.
  - intros L. split; apply (format_enough frames); exact L.
  - intros t [E|E]; eapply (format_needs frames); exact E.
Qed.
Theorem C59_display frames v :
  (2 * depth v + 1 <= N.of_nat frames -> value_display_within frames v = value_display v) /\
  (forall t, value_display_within frames v = Some t -> depth v + 1 <= N.of_nat frames).
Proof.
  split.
  - intros L. apply (format_enough frames); exact L.
  - intros t E; eapply (format_needs frames); exact E.
Qed.

(** The same for comparing; the depth of the left side counts, and no comparison of equal Objs gets by with less
    than the depth. *)
Theorem C59_eq frames a b :
  (wf_obj any_names a -> 2 * depth_obj a <= N.of_nat frames -> obj_eq_within frames a b = Some (obj_eqb a b)) /\
  (obj_eq_within frames a b = Some true -> depth_obj a <= N.of_nat frames).
Proof. split; [apply (eq_enough frames)|apply (eq_needs frames)]. Qed.
Theorem C59_value_eq frames v w :
  (wf_value any_names v -> 2 * depth v + 1 <= N.of_nat frames -> value_eq_within frames v w = Some (value_eqb v w)) /\
  (value_eq_within frames v w = Some true -> depth v + 1 <= N.of_nat frames).
Proof. split; [apply (eq_enough frames)|apply (eq_needs frames)]. Qed.

(** Whatever the stack: the process dies or the answer is the answer. *)
Theorem C59_dies_or_agrees frames :
  (forall o t, write_within frames o = Some t -> write_to_string o = Some t) /\
  (forall o t, obj_display_within frames o = Some t -> obj_display o = Some t) /\
  (forall v t, value_display_within frames v = Some t -> value_display v = Some t) /\
  (forall a b r, obj_eq_within frames a b = Some r -> obj_eqb a b = r) /\
  (forall v w r, value_eq_within frames v w = Some r -> value_eqb v w = r).
Proof.
  assert (X : forall A (a b : option A) r, le a b -> a = Some r -> b = Some r) by (intros A a b r [->| ->]; congruence).
  repeat split; intros.
  - eapply X; [apply (format_le frames)|exact H].
  - eapply X; [apply (format_le frames)|exact H].
  - eapply X; [apply (format_le frames)|exact H].
  - enough (Some (obj_eqb a b) = Some r) by congruence. eapply X; [apply (eq_le frames)|exact H].
  - enough (Some (value_eqb v w) = Some r) by congruence. eapply X; [apply (eq_le frames)|exact H].
Qed.

(** Looking up a field: one frame for every generation searched. *)
Fixpoint generations (o : obj) : N := match o with MkObj _ _ par => 1 + match par with Some p => generations p | None => 0 end end.
Theorem C59_get frames : forall o f,
  (forall r, get_within frames o f = Some r -> r = obj_get o f) /\
  (generations o <= N.of_nat frames -> get_within frames o f = Some (obj_get o f)) /\
  (get_within frames o f = Some None -> generations o <= N.of_nat frames).
Proof.
  induction frames as [|k IH]; intros [id ps par] f; cbn [get_within obj_get generations].
  - split; [discriminate|]. split; [lia|discriminate].
  - destruct (assoc f ps) as [v|]; [split; [congruence|split; [auto|discriminate]]|].
    destruct par as [p|]; [|split; [congruence|split; [auto|lia]]].
    destruct (IH p f) as (H1 & H2 & H3). split; [exact H1|]. split; [intros; apply H2; lia|]. intros E. apply H3 in E. lia.
Qed.

(** The type of a value: one frame for every level of the type. *)
Lemma clone_spec k : forall t,
  (forall u, ty_clone_within k t = Some u -> u = t /\ nested t <= N.of_nat k) /\
  (nested t + 1 <= N.of_nat k -> ty_clone_within k t = Some t).
Proof.
  induction k as [|k IH]; intros t; [split; [discriminate|lia]|]. cbn [ty_clone_within].
  destruct t as [| | | | | |t|ts|]; cbn [nested].
  1-6,9: split; [intros u E; inversion E; subst; split; [reflexivity|lia]|reflexivity].
  - destruct (IH t) as [H1 H2]. split.
    + destruct (ty_clone_within k t) as [x|]; [|discriminate]. intros u E. inversion E; subst. destruct (H1 x eq_refl) as [-> L]. split; [reflexivity|lia].
    + intros L. rewrite H2 by lia. reflexivity.
  - match goal with |- (forall u, option_map TTup (?g ts) = _ -> _) /\ _ => set (go := g) end.
    assert (G : forall ts, (forall us, go ts = Some us -> us = ts /\ fold_right N.max 0 (map nested ts) <= N.of_nat k) /\
                           (fold_right N.max 0 (map nested ts) + 1 <= N.of_nat k -> go ts = Some ts)).
    { clear ts. induction ts as [|t ts [G1 G2]]; cbn [go map fold_right]; [split; [intros us E; inversion E; subst; split; [reflexivity|lia]|reflexivity]|].
      destruct (IH t) as [H1 H2]. split.
      - destruct (ty_clone_within k t) as [x|]; [|discriminate]. fold go. destruct (go ts) as [m|]; [|discriminate].
        intros us E. inversion E; subst. destruct (H1 x eq_refl) as [-> L]. destruct (G1 m eq_refl) as [-> L2]. split; [reflexivity|lia].
      - intros L. rewrite H2 by lia. fold go. rewrite G2 by lia. reflexivity. }
    destruct (G ts) as [G1 G2]. split.
    + destruct (go ts) as [m|]; [|discriminate]. intros u E. inversion E; subst. destruct (G1 m eq_refl) as [-> L]. split; [reflexivity|lia].
    + intros L. rewrite G2 by lia. reflexivity.
Qed.
Theorem C59_get_type frames v :
  (forall t, get_type_within frames v = Some t -> t = get_type v /\ levels v <= N.of_nat frames + 1) /\
  (levels v <= N.of_nat frames -> get_type_within frames v = Some (get_type v)).
Proof.
  destruct v as [| | | | |a|a|o]; unfold levels; cbn [get_type_within get_type].
  1-5,8: split; [intros t E; inversion E; subst; split; [reflexivity|cbn; lia]|reflexivity].
  - destruct (clone_spec frames (arr_inner_type a)) as [H1 H2]. cbn [nested]. split.
    + destruct (ty_clone_within frames (arr_inner_type a)) as [x|]; [|discriminate]. intros t E. inversion E; subst. destruct (H1 x eq_refl) as [-> L]. split; [reflexivity|lia].
    + intros L. rewrite H2 by lia. reflexivity.
  - destruct (clone_spec (S frames) (TTup (tup_types a))) as [H1 H2]. split.
    + intros t E. apply H1 in E as [-> L]. split; [reflexivity|lia].
    + intros L. apply H2. lia.
Qed.

(** Objs that can be written and loaded again need 128 frames. *)
Theorem C59_reloadable fs g o text o' : wf_obj good_names o -> write_to_string o = Some text -> from_str fs g text = Some (OOk o') ->
  write_within 128 o = Some text /\ (forall b, obj_eq_within 128 o b = Some (obj_eqb o b)).
Proof.
  intros W E K. assert (D : depth_obj o <= 64).
  { destruct (N.le_gt_cases (depth_obj o) 64) as [D|D]; auto. exfalso. destruct (C01_too_deep fs g o W D) as (t & e & E2 & K2 & _). congruence. }
  split.
  - rewrite <- E. apply C59_write. change (N.of_nat 128) with 128. lia.
  - intros b. apply C59_eq; [apply (proj2 (wf_weaken good_names any_names (fun l H => I))); exact W|]. change (N.of_nat 128) with 128. lia.
Qed.

(** For every stack there is a text that loads (with a larger stack, C55) and whose Obj cannot be written, shown or
    compared with itself. *)
Theorem C59_overflow fs g frames : exists text o, from_str fs g text = Some (OOk o) /\
  write_within frames o = None /\ obj_display_within frames o = None /\ obj_eq_within frames o o = None.
Proof.
  destruct (C02_loads_any_depth fs g frames) as (text & o & E & D). exists text, o. split; [exact E|].
  destruct (C59_write frames o) as [_ H]. split; [|split].
  - destruct (write_within frames o) as [t|] eqn:W; [|reflexivity]. specialize (H t (or_introl eq_refl)). lia.
  - destruct (obj_display_within frames o) as [t|] eqn:W; [|reflexivity]. specialize (H t (or_intror eq_refl)). lia.
  - destruct (obj_eq_within frames o o) as [r|] eqn:W; [|reflexivity]. exfalso.
    pose proof (proj1 (proj2 (proj2 (proj2 (C59_dies_or_agrees frames)))) o o r W) as R.
    assert (Q : obj_eqb o o = true). { apply erase_eqb; auto; apply any_good; eapply loaded_wf; left; eauto. }
    rewrite Q in R. subst r. apply (C59_eq frames) in W. lia.
Qed.

(** ** Examples *)
Definition ex_deep : obj := MkObj 5 [(lit "a", VArr (MkArr 1 (TArr TAny) [VArr (MkArr 2 TAny [])]))] (Some (MkObj 3 [(lit "b", VInt 1)] None)).
Example C59_ex_depth : depth_obj ex_deep = 3. Proof. reflexivity. Qed.
Example C59_ex_write : write_within 6 ex_deep = write_to_string ex_deep /\ write_within 4 ex_deep = None.
Proof. vm_compute. auto. Qed.
Example C59_ex_eq : obj_eq_within 6 ex_deep ex_deep = Some true /\ obj_eq_within 4 ex_deep ex_deep = None /\ wf_obj any_names ex_deep.
Proof.
  split; [vm_compute; reflexivity|]. split; [vm_compute; reflexivity|].
  assert (L1 : least_spec_all (map get_type []) TAny) by apply least_spec_all_nil.
  constructor; [exact I| |].
  - repeat constructor. cbn [map get_type]. apply (least_spec_all_snoc [] TAny); [apply least_spec_all_nil|]. apply most_specific_some. eexists. reflexivity.
  - intros p E. inversion E; subst. constructor; [exact I|repeat constructor|discriminate].
Qed.
Example C59_ex_get : get_within 1 ex_deep (lit "b") = None /\ get_within 2 ex_deep (lit "b") = Some (Some (VInt 1)).
Proof. vm_compute. auto. Qed.
End P.

Print Assumptions C59_write.
Print Assumptions C59_display.
Print Assumptions C59_eq.
Print Assumptions C59_value_eq.
Print Assumptions C59_dies_or_agrees.
Print Assumptions C59_get.
Print Assumptions C59_get_type.
Print Assumptions C59_reloadable.
Print Assumptions C59_overflow.
