(** * PropClient: equal values cannot be told apart (C78). *)
From Verif Require Import Clients ValueSpec FormatProofs PropData PropLoad PropHistory PropText PropApi.
From Coq Require String.
Import String.StringSyntax.
Open Scope N_scope.

(** Values that a program may hold, and that are equal by [==]. *)
Definition equal_values (v w : value) : Prop := wf_value any_names v /\ wf_value any_names w /\ value_eqb v w = true.

(** ** The relation, by shapes *)
Definition rel (v w : value) : Prop := wf_value any_names v /\ wf_value any_names w /\ erase v = erase w.
Definition relo (o p : obj) : Prop := wf_obj any_names o /\ wf_obj any_names p /\ erase_obj o = erase_obj p.
Definition relp (a b : str * value) : Prop := fst a = fst b /\ rel (snd a) (snd b).
Lemma rel_eq v w : equal_values v w <-> rel v w.
Proof. unfold equal_values, rel. split; intros (A & B & C); (split; [exact A|]; split; [exact B|]); apply value_eqb_iff; auto. Qed.
Lemma rel_vals vs : forall ws, Forall (wf_value any_names) vs -> Forall (wf_value any_names) ws -> map erase vs = map erase ws -> Forall2 rel vs ws.
Proof.
  induction vs as [|v vs IH]; intros [|w ws] A B E; try discriminate; constructor; inversion A; inversion B; subst; injection E as E1 E2; [repeat split; auto|auto].
Qed.
Lemma rel_obj o p : rel (VObj o) (VObj p) <-> relo o p.
Proof.
  unfold rel, relo. cbn [erase]. split; intros (A & B & C).
  - inversion A; inversion B; subst. injection C as C. auto.
  - split; [constructor; exact A|]. split; [constructor; exact B|]. congruence.
Qed.
Lemma relo_pairs o p : relo o p -> Forall2 relp (obj_pairs o) (obj_pairs p).
Proof.
  destruct o as [i ps q], p as [j qs r]. intros (A & B & C). inversion A; inversion B; subst. cbn [erase_obj] in C. injection C as C _. cbn [obj_pairs].
  clear - H3 H9 C. revert qs H9 C. induction ps as [|[f v] ps IH]; intros [|[h w] qs] F C; try discriminate; constructor.
  - cbn in C. injection C as -> Cv C. inversion H3; inversion F; subst. split; [reflexivity|]. repeat split; auto.
  - cbn in C. injection C as _ _ C. inversion H3; inversion F; subst. apply IH; auto.
Qed.
Lemma relo_parent o p : relo o p -> match obj_parent o, obj_parent p with Some x, Some y => relo x y | None, None => True | _, _ => False end.
Proof.
  destruct o as [i ps [q|]], p as [j qs [r|]]; intros (A & B & C); cbn [erase_obj] in C; try discriminate C; cbn [obj_parent]; auto.
  inversion A; inversion B; subst. injection C as _ C. repeat split; auto.
Qed.
Definition shapes (v w : value) : Prop :=
  match v, w with
  | VArr a, VArr b => arr_inner_type a = arr_inner_type b /\ Forall2 rel (arr_values a) (arr_values b)
  | VTup a, VTup b => tup_types a = tup_types b /\ Forall2 rel (tup_values a) (tup_values b)
  | VObj o, VObj p => relo o p
  | VArr _, _ | VTup _, _ | VObj _, _ => False
  | _, _ => v = w
  end.
Lemma rel_shapes v w : rel v w -> shapes v w.
Proof.
  intros (A & B & C). destruct v, w; try discriminate C; try (destruct a; discriminate C); try (destruct t; discriminate C); try (exact C); try (destruct a; try destruct t; discriminate C).
  - destruct a as [i t vs], a0 as [j u ws]. cbn [erase] in C. injection C as -> C. inversion A; inversion B; subst. split; [reflexivity|]. apply rel_vals; auto.
  - destruct t as [i t vs], t0 as [j u ws]. cbn [erase] in C. injection C as Ct C. split; [exact Ct|]. clear Ct. inversion A; inversion B; subst. apply rel_vals; auto.
  - apply rel_obj. repeat split; auto.
Qed.
Lemma rel_type v w : rel v w -> get_type v = get_type w.
Proof. intros (_ & _ & C). rewrite <- (get_type_erase v), <- (get_type_erase w), C. reflexivity. Qed.
Lemma types_eq vs ws : Forall2 rel vs ws -> map get_type vs = map get_type ws.
Proof. induction 1; [reflexivity|]. cbn. f_equal; auto using rel_type. Qed.
Lemma rel_erases vs ws : Forall2 rel vs ws -> Forall (wf_value any_names) vs /\ Forall (wf_value any_names) ws /\ map erase vs = map erase ws.
Proof. induction 1 as [|v w vs ws (A & B & C) _ (D & E & F)]; [auto|]. cbn. repeat split; try constructor; auto. congruence. Qed.
Lemma nth_rel vs ws n : Forall2 rel vs ws -> match nth_error vs n, nth_error ws n with Some v, Some w => rel v w | None, None => True | _, _ => False end.
Proof. intros H. revert n. induction H; intros [|n]; cbn; auto. apply IHForall2. Qed.
Lemma len_rel {A B} (R : A -> B -> Prop) vs ws : Forall2 R vs ws -> length vs = length ws.
Proof. induction 1; cbn; auto. Qed.
Lemma assoc_rel ps qs f : Forall2 relp ps qs -> match assoc f ps, assoc f qs with Some v, Some w => rel v w | None, None => True | _, _ => False end.
Proof. induction 1 as [|[a v] [b w] ps qs [E R] _ IH]; cbn; auto. cbn in E. subst b. destruct (str_eqb a f); auto. Qed.
Lemma get_rel : forall o p f, relo o p -> match obj_get o f, obj_get p f with Some v, Some w => rel v w | None, None => True | _, _ => False end.
Proof.
  fix IH 1. intros [i ps q] [j qs r] f R. pose proof (relo_pairs _ _ R) as P. pose proof (relo_parent _ _ R) as Q. cbn [obj_pairs obj_parent obj_get] in *.
  apply (assoc_rel _ _ f) in P. destruct (assoc f ps), (assoc f qs); try contradiction; auto. destruct q as [q|], r as [r|]; try contradiction; auto. apply IH. exact Q.
Qed.
Lemma source_rel : forall o p f, relo o p -> match obj_get_with_source o f, obj_get_with_source p f with Some (v, x), Some (w, y) => rel v w /\ relo x y | None, None => True | _, _ => False end.
Proof.
  fix IH 1. intros [i ps q] [j qs r] f R. pose proof (relo_pairs _ _ R) as P. pose proof (relo_parent _ _ R) as Q. cbn [obj_pairs obj_parent obj_get_with_source] in *.
  apply (assoc_rel _ _ f) in P. destruct (assoc f ps), (assoc f qs); try contradiction; auto. destruct q as [q|], r as [r|]; try contradiction; auto. apply IH. exact Q.
Qed.

(** ** One call *)
Definition agree (x y : list obs * list value) : Prop := fst x = fst y /\ Forall2 rel (snd x) (snd y).
Lemma agree_tell o : agree (tell o) (tell o).
Proof. split; [reflexivity|constructor]. Qed.
Lemma agree_give v w : rel v w -> agree (give v) (give w).
Proof. intros R. split; [reflexivity|]. constructor; [exact R|constructor]. Qed.
Lemma agree_tell' o p : o = p -> agree (tell o) (tell p).
Proof. intros ->. apply agree_tell. Qed.
Lemma with_value_agree env env' h f f' : Forall2 rel env env' -> (forall v w, rel v w -> agree (f v) (f' w)) -> agree (with_value env h f) (with_value env' h f').
Proof. intros E F. unfold with_value. pose proof (nth_rel _ _ h E) as N. destruct (nth_error env h), (nth_error env' h); try contradiction; auto. apply agree_tell. Qed.
Lemma with_obj_agree env env' h f f' : Forall2 rel env env' -> (forall v w, relo v w -> agree (f v) (f' w)) -> agree (with_obj env h f) (with_obj env' h f').
Proof.
  intros E F. unfold with_obj. pose proof (nth_rel _ _ h E) as N. destruct (nth_error env h) as [v|], (nth_error env' h) as [w|]; try contradiction; auto using agree_tell.
  pose proof (rel_shapes _ _ N) as S. destruct v, w; try discriminate S; try contradiction S; auto using agree_tell.
Qed.
Lemma held_rel env env' hs : Forall2 rel env env' -> match held env hs, held env' hs with Some vs, Some ws => Forall2 rel vs ws | None, None => True | _, _ => False end.
Proof.
  intros E. induction hs as [|h hs IH]; [constructor|]. cbn [held]. pose proof (nth_rel _ _ h E) as N. destruct (nth_error env h), (nth_error env' h); try contradiction; auto.
  destruct (held env hs), (held env' hs); try contradiction; auto.
Qed.
Lemma held_pairs_rel env env' hs : Forall2 rel env env' -> match held_pairs env hs, held_pairs env' hs with Some vs, Some ws => Forall2 relp vs ws | None, None => True | _, _ => False end.
Proof.
  intros E. induction hs as [|[f h] hs IH]; [constructor|]. cbn [held_pairs]. pose proof (nth_rel _ _ h E) as N. destruct (nth_error env h), (nth_error env' h); try contradiction; auto.
  destruct (held_pairs env hs), (held_pairs env' hs); try contradiction; auto. constructor; auto. split; auto.
Qed.
Lemma check_rel vs ws : Forall2 rel vs ws -> forall t any, arr_check vs t any = arr_check ws t any.
Proof. induction 1; intros t any; [reflexivity|]. cbn [arr_check]. rewrite (rel_type _ _ H). destruct (arr_check_step _ _ _) as [[t' a']|e]; auto. Qed.
Lemma from_values_rel id id' vs ws : Forall2 rel vs ws ->
  match arr_from_values id vs, arr_from_values id' ws with OOk a, OOk b => rel (VArr a) (VArr b) | OErr e, OErr e' => e = e' | _, _ => False end.
Proof.
  intros R. pose proof (proj1 C12_checked_constructors_wf) as W. pose proof (W id vs) as W1. pose proof (W id' ws) as W2. clear W.
  unfold arr_from_values in *. rewrite <- (check_rel _ _ R) in *. apply rel_erases in R as (A & B & C).
  destruct (arr_check vs TAny true) as [t|[t1 t2]]; [|reflexivity]. split; [apply W1; auto|]. split; [apply W2; auto|]. unfold arr_from_values_unchecked. cbn [erase]. congruence.
Qed.
Section S.
Context `{U : Unicode}.
Lemma pairs_check ps qs : Forall2 relp ps qs -> obj_from_pairs_check ps = obj_from_pairs_check qs.
Proof. induction 1 as [|[a v] [b w] ps qs [E R] _ IH]; [reflexivity|]. cbn [fst] in E. subst b. cbn [obj_from_pairs_check]. rewrite IH. reflexivity. Qed.
Lemma pairs_wf ps qs : Forall2 relp ps qs -> Forall (wf_value any_names) (map snd ps) /\ Forall (wf_value any_names) (map snd qs) /\
  map (fun p => match p with (f, v) => (f, erase v) end) ps = map (fun p => match p with (f, v) => (f, erase v) end) qs.
Proof. induction 1 as [|[a v] [b w] ps qs X _ (A & B & C)]; [repeat split; constructor|]. destruct X as [E (R1 & R2 & R3)]. cbn [fst snd] in E, R1, R2, R3. subst. cbn [map snd]. repeat split; try constructor; auto. congruence. Qed.
Lemma from_pairs_rel id id' ps qs q r : Forall2 relp ps qs -> match q, r with Some x, Some y => relo x y | None, None => True | _, _ => False end ->
  match obj_from_pairs id ps q, obj_from_pairs id' qs r with OOk a, OOk b => rel (VObj a) (VObj b) | OErr e, OErr e' => e = e' | _, _ => False end.
Proof.
  intros R Q. unfold obj_from_pairs. rewrite (pairs_check _ _ R). destruct (obj_from_pairs_check qs); [reflexivity|]. apply rel_obj. apply pairs_wf in R as (A & B & C).
  unfold obj_from_pairs_unchecked. split; [|split].
  - constructor; [exact I|exact A|]. intros p ->. destruct r; [apply Q|contradiction].
  - constructor; [exact I|exact B|]. intros p ->. destruct q; [apply Q|contradiction].
  - cbn [erase_obj]. destruct q, r; try contradiction; [destruct Q as (_ & _ & Q)|]; congruence.
Qed.
Lemma split_rel (es : list pair_t) : forall (es' ps qs : list pair_t) q r, Forall2 relp es es' -> Forall2 relp ps qs -> match q, r with Some x, Some y => rel x y | None, None => True | _, _ => False end ->
  Forall2 relp (fst (try_obj_split es ps q)) (fst (try_obj_split es' qs r)) /\
  match snd (try_obj_split es ps q), snd (try_obj_split es' qs r) with Some x, Some y => rel x y | None, None => True | _, _ => False end.
Proof.
  induction es as [|[f v] es IH]; intros es' ps qs q r E P Q; inversion E as [|? [f' w] ? es2 [N R] T]; subst; [auto|]. cbn [try_obj_split]. cbn in N, R. subst f'.
  destruct (str_eqb f (lit "^")); apply IH; auto. apply Forall2_app; auto. constructor; [split; auto|constructor].
Qed.
Lemma try_obj_rel id id' (es es' : list pair_t) : Forall2 relp es es' ->
  match try_obj id es, try_obj id' es' with OOk a, OOk b => rel (VObj a) (VObj b) | OErr e, OErr e' => e = e' | _, _ => False end.
Proof.
  intros E. destruct (split_rel es es' [] [] None None E (Forall2_nil _) I) as [P Q]. unfold try_obj. 
  destruct (try_obj_split es [] None) as [ps q] eqn:E1. destruct (try_obj_split es' [] None) as [qs r] eqn:E2. cbn [fst snd] in *. destruct q as [x|], r as [y|]; try contradiction.
  - pose proof (rel_shapes _ _ Q) as S. pose proof (rel_type _ _ Q) as T. unfold get_obj. destruct x, y; try discriminate S; try contradiction S; try (rewrite T; reflexivity); try (cbn in *; congruence).
    apply from_pairs_rel; auto.
  - apply from_pairs_rel; auto.
Qed.
Lemma typed_agree {A} (g : value -> ores A) (k : A -> list obs * list value) o p f : relo o p -> (forall v w, rel v w -> agree (answer k (g v)) (answer k (g w))) ->
  agree (answer k (obj_get_typed g o f)) (answer k (obj_get_typed g p f)).
Proof.
  intros R G. unfold obj_get_typed. pose proof (get_rel _ _ f R) as H. destruct (obj_get o f) as [v|], (obj_get p f) as [w|]; try contradiction; [|apply agree_tell].
  specialize (G _ _ H). destruct (g v), (g w); exact G.
Qed.
Lemma eqb_rel v w v' w' : rel v w -> rel v' w' -> value_eqb v v' = value_eqb w w'.
Proof.
  intros (A & B & C) (A' & B' & C'). pose proof (value_eqb_iff v v' A A') as X. pose proof (value_eqb_iff w w' B B') as Y. rewrite C, C' in X.
  destruct (value_eqb v v'), (value_eqb w w'); try reflexivity; [symmetry; apply Y, X; reflexivity|apply X, Y; reflexivity].
Qed.
Ltac getter := intros v w R; pose proof (rel_shapes _ _ R) as S; pose proof (rel_type _ _ R) as T; destruct v, w; try discriminate S; try contradiction S;
  try (cbn [shapes] in S; injection S as S; subst); cbn in *; try apply agree_tell; try (apply agree_tell'; congruence); try (apply agree_give; exact R).
Lemma load_agree fs g g' (r r' : option (ores obj)) : (forall o, r = Some (OOk o) -> loaded fs g o) -> (forall o, r' = Some (OOk o) -> loaded fs g' o) ->
  same_outcome g g' r r' -> agree (answer_load r) (answer_load r').
Proof.
  intros L L' S. destruct r as [[o|e]|], r' as [[o'|e']|]; try contradiction; cbn [answer_load answer]; [|cbn in S; subst; apply agree_tell|apply agree_tell].
  destruct S as (_ & _ & E & _). apply agree_give, rel_obj. split; [|split; [|exact E]]; eapply (proj2 (wf_weaken good_names any_names (fun _ _ => I))); eapply loaded_wf; eauto.
Qed.
Lemma do_agree fs g g' id id' env env' k : process g -> process g' -> Forall2 rel env env' -> scalar_only k ->
  agree (do_call fs g id env k) (do_call fs g' id' env' k).
Proof.
  intros P P' E SO. destruct k; cbn [do_call].
  - destruct s; try (apply agree_give; repeat split; constructor). unfold frac_macro. destruct (ratio_new n d) as [q|] eqn:Q; [|apply agree_tell]. apply agree_give. assert (lowest q) by (apply lowest_Qred; exact (proj2 (proj1 (proj2 (C46_frac_macro n d)) q Q))). repeat split; constructor; assumption.
  - pose proof (held_rel _ _ hs E) as H. destruct (held env hs), (held env' hs); try contradiction; [|apply agree_tell].
    apply (from_values_rel id id') in H. destruct (arr_from_values id l), (arr_from_values id' l0); try contradiction; cbn [answer]; [apply agree_give; exact H|subst; apply agree_tell].
  - pose proof (held_rel _ _ hs E) as H. destruct (held env hs), (held env' hs); try contradiction; [|apply agree_tell]. apply agree_give.
    pose proof (types_eq _ _ H) as T. apply rel_erases in H as (A & B & C). pose proof (proj1 (proj2 C12_checked_constructors_wf)) as W. split; [apply W; exact A|]. split; [apply W; exact B|].
    unfold tup_from_values. cbn [erase]. congruence.
  - destruct par as [h|].
    + apply with_obj_agree; auto. intros o p R. pose proof (held_pairs_rel _ _ fs0 E) as H. destruct (held_pairs env fs0), (held_pairs env' fs0); try contradiction; [|apply agree_tell].
      apply (from_pairs_rel id id' _ _ (Some o) (Some p)) in H; [|exact R]. destruct (obj_from_pairs id l _), (obj_from_pairs id' l0 _); try contradiction; cbn [answer]; [apply agree_give; exact H|subst; apply agree_tell].
    + pose proof (held_pairs_rel _ _ fs0 E) as H. destruct (held_pairs env fs0), (held_pairs env' fs0); try contradiction; [|apply agree_tell].
      apply (from_pairs_rel id id' _ _ None None) in H; [|exact I]. destruct (obj_from_pairs id l _), (obj_from_pairs id' l0 _); try contradiction; cbn [answer]; [apply agree_give; exact H|subst; apply agree_tell].
  - pose proof (held_pairs_rel _ _ es E) as H. destruct (held_pairs env es), (held_pairs env' es); try contradiction; [|apply agree_tell].
    apply (try_obj_rel id id') in H. destruct (try_obj id l), (try_obj id' l0); try contradiction; cbn [answer]; [apply agree_give; exact H|subst; apply agree_tell].
  - apply with_value_agree; auto. intros v w R. apply agree_tell'. f_equal. apply rel_type. exact R.
  - apply with_value_agree; auto. getter.
  - apply with_value_agree; auto. getter.
  - apply with_value_agree; auto. getter.
  - apply with_value_agree; auto. getter.
  - apply with_value_agree; auto. getter.
  - apply with_value_agree; auto. getter.
  - apply with_value_agree; auto. getter.
  - apply with_value_agree; auto. getter.
  - apply with_value_agree; auto. intros v w R. apply rel_shapes in R. destruct v, w; try discriminate R; try contradiction R; try apply agree_tell; cbn [shapes] in R; apply agree_tell'; unfold arr_len, tup_len, obj_len.
    + destruct R as [_ R]. rewrite (len_rel _ _ _ R). reflexivity.
    + destruct R as [_ R]. rewrite (len_rel _ _ _ R). reflexivity.
    + apply relo_pairs in R. f_equal. f_equal. exact (len_rel _ _ _ R).
  - apply with_value_agree; auto. intros v w R. apply rel_shapes in R. destruct v, w; try discriminate R; try contradiction R; try apply agree_tell; cbn [shapes] in R; apply agree_tell'; unfold arr_is_empty, tup_is_empty, obj_is_empty.
    + destruct R as [_ R]. inversion R; reflexivity.
    + destruct R as [_ R]. inversion R; reflexivity.
    + apply relo_pairs in R. inversion R; reflexivity.
  - apply with_value_agree; auto. intros v w R. apply rel_shapes in R. destruct v, w; try discriminate R; try contradiction R; try apply agree_tell; cbn [shapes] in R; destruct R as [_ R].
    + unfold arr_get, arr_len. rewrite (len_rel _ _ _ R). destruct (_ <=? i); [apply agree_tell|]. apply (nth_rel _ _ (N.to_nat i)) in R. destruct (nth_error (arr_values a) _), (nth_error (arr_values a0) _); try contradiction; [apply agree_give; exact R|apply agree_tell].
    + unfold tup_get, tup_len. rewrite (len_rel _ _ _ R). destruct (_ <=? i); [apply agree_tell|]. apply (nth_rel _ _ (N.to_nat i)) in R. destruct (nth_error (tup_values t) _), (nth_error (tup_values t0) _); try contradiction; [apply agree_give; exact R|apply agree_tell].
  - apply with_value_agree; auto. intros v w R. apply rel_shapes in R. destruct v, w; try discriminate R; try contradiction R; try apply agree_tell; cbn [shapes] in R; destruct R as [T R].
    + rewrite T. apply agree_tell.
    + rewrite T. split; [reflexivity|constructor].
  - apply with_obj_agree; auto. intros o p R. apply (get_rel _ _ f) in R. destruct (obj_get o f), (obj_get p f); try contradiction; [apply agree_give; exact R|apply agree_tell].
  - apply with_obj_agree; auto. intros o p R. apply (source_rel _ _ f) in R. destruct (obj_get_with_source o f) as [[v x]|], (obj_get_with_source p f) as [[w y]|]; try contradiction; [|apply agree_tell].
    destruct R as [R1 R2]. split; [reflexivity|]. constructor; [exact R1|]. constructor; [apply rel_obj; exact R2|constructor].
  - apply with_obj_agree; auto. intros o p RO. apply typed_agree; auto. getter.
  - apply with_obj_agree; auto. intros o p RO. apply typed_agree; auto. getter.
  - apply with_obj_agree; auto. intros o p RO. apply typed_agree; auto. getter.
  - apply with_obj_agree; auto. intros o p RO. apply typed_agree; auto. getter.
  - apply with_obj_agree; auto. intros o p RO. apply typed_agree; auto. getter.
  - apply with_obj_agree; auto. intros o p RO. apply typed_agree; auto. getter.
  - apply with_obj_agree; auto. intros o p RO. apply typed_agree; auto. getter.
  - apply with_obj_agree; auto. intros o p R. apply agree_tell'. f_equal. apply relo_pairs in R. unfold obj_contains. induction R as [|a b ps qs [N _] _ IH]; [reflexivity|]. cbn. rewrite N, IH. reflexivity.
  - apply with_obj_agree; auto. intros o p R. apply relo_parent in R. unfold obj_has_parent. destruct (obj_parent o), (obj_parent p); try contradiction; [|apply agree_tell].
    split; [reflexivity|]. constructor; [apply rel_obj; exact R|constructor].
  - apply with_value_agree; auto. intros v w R. apply rel_shapes in R. destruct v, w; try discriminate R; try contradiction R; try apply agree_tell; cbn [shapes] in R.
    + split; [reflexivity|apply R].
    + split; [reflexivity|apply R].
    + apply relo_pairs in R. unfold obj_iter. induction R as [|a b ps qs [N RR] _ [IH1 IH2]]; [split; [reflexivity|constructor]|]. cbn [fst snd map] in *. split; [cbn [fst]; rewrite N; f_equal; exact IH1|]. constructor; auto.
  - apply with_value_agree; auto. intros v w R. apply with_value_agree; auto. intros v' w' R'. apply agree_tell'. f_equal. apply eqb_rel; assumption.
  - apply with_value_agree; auto. intros v w R. apply rel_shapes in R. cbn [scalar_only] in SO. apply agree_tell'. f_equal. destruct v, w; try discriminate R; try contradiction R; cbn [shapes] in R; try (rewrite R; reflexivity); destruct n; try contradiction; reflexivity.
  - apply with_value_agree; auto. intros v w R. apply rel_shapes in R. cbn [scalar_only] in SO. apply agree_tell'. f_equal. destruct v, w; try discriminate R; try contradiction R; cbn [shapes] in R; try (rewrite R; reflexivity); destruct n; try contradiction; reflexivity.
  - apply with_value_agree; auto. intros v w R. apply rel_eq in R as (A & B & C). apply agree_tell'. f_equal. eapply C12_eq_same_type_and_text; eauto.
  - apply with_obj_agree; auto. intros o p R. apply agree_tell'. f_equal. destruct R as (A & B & C). apply C33_equal_objs_same_text; auto. apply obj_eqb_iff; auto.
  - eapply load_agree; [| |apply C34_from_str; assumption]; intros o L; left; eauto.
  - eapply load_agree; [| |apply C34_from_file; assumption]; intros o L; right; eauto.
Qed.

(** ** The theorems *)
(** A program that looks at its values only through the API, without asking for identity (id, ptr_eq, num_references)
    and without unchecked constructors, learns the same from equal values: whatever it does and for however long, and
    even if the two runs happen in processes with different pasts, whose other threads do different things. *)
Theorem C78_clients fs gs gs' ids ids' c n env env' :
  (forall k, process (gs k)) -> (forall k, process (gs' k)) -> (forall seen k, c seen = Some k -> scalar_only k) ->
  Forall2 equal_values env env' ->
  learns fs gs ids c n env [] = learns fs gs' ids' c n env' [].
Proof.
  intros P P' SO E. assert (R : Forall2 rel env env') by (induction E; constructor; auto; apply rel_eq; assumption). clear E.
  generalize (@nil (list obs * nat)) as seen. revert env env' R. induction n as [|n IH]; intros env env' R seen; [reflexivity|].
  cbn [learns]. destruct (c seen) as [k|] eqn:K; [|reflexivity].
  destruct (do_agree (fs (length seen)) _ _ (ids (length seen)) (ids' (length seen)) _ _ k (P (length seen)) (P' (length seen)) R (SO _ _ K)) as [O V].
  destruct (do_call (fs (length seen)) (gs (length seen)) (ids (length seen)) env k) as [o vs].
  destruct (do_call (fs (length seen)) (gs' (length seen)) (ids' (length seen)) env' k) as [o' vs']. cbn [fst snd] in O, V. subst o'.
  rewrite (len_rel _ _ _ V). apply IH. apply Forall2_app; assumption.
Qed.

(** And conversely: values that are not equal are told apart by a program, so [==] is exactly what such programs can see. *)
Definition shows : client := fun seen => match seen with [] => Some (KShow 0) | _ => None end.
Theorem C78_equal_iff_not_told_apart v w : wf_value good_names v -> wf_value good_names w ->
  (value_eqb v w = true <->
   forall fs gs gs' ids ids' c n, (forall k, process (gs k)) -> (forall k, process (gs' k)) -> (forall seen k, c seen = Some k -> scalar_only k) ->
     learns fs gs ids c n [v] [] = learns fs gs' ids' c n [w] []).
Proof.
  intros V W. split.
  - intros E fs gs gs' ids ids' c n P P' SO. apply C78_clients; auto. constructor; [|constructor].
    split; [|split; [|exact E]]; eapply (proj1 (wf_weaken good_names any_names (fun _ _ => I))); assumption.
  - intros H. specialize (H (fun _ => no_fs) (fun _ => g0) (fun _ => g0) (fun _ => 0) (fun _ => 0) shows 1%nat (fun _ => pr_start) (fun _ => pr_start)).
    assert (S : forall seen k, shows seen = Some k -> scalar_only k) by (intros [|] k K; [injection K as <-; exact I|discriminate K]).
    specialize (H S). cbn in H. injection H as H. apply C36_text_determines_value; auto.
    destruct (value_display v), (value_display w); cbn in H; congruence.
Qed.

(** Also what one holds of an equal value, and what one builds of equal values, is equal. *)
Theorem C78_calls fs g g' id id' env env' k : process g -> process g' -> scalar_only k -> Forall2 equal_values env env' ->
  fst (do_call fs g id env k) = fst (do_call fs g' id' env' k) /\
  Forall2 equal_values (snd (do_call fs g id env k)) (snd (do_call fs g' id' env' k)).
Proof.
  intros P P' SO E. assert (R : Forall2 rel env env') by (induction E; constructor; auto; apply rel_eq; assumption).
  destruct (do_agree fs g g' id id' _ _ k P P' R SO) as [O V]. split; [exact O|]. induction V; constructor; auto. apply rel_eq; assumption.
Qed.

(** Identity does tell equal values apart. *)
Theorem C78_identity_refuted : exists o p q, equal_values (VObj o) (VObj p) /\ obj_ptr_eq o q <> obj_ptr_eq p q.
Proof.
  exists (MkObj 1 [] None), (MkObj 2 [] None), (MkObj 1 [] None). split; [|vm_compute; discriminate].
  split; [|split; [|reflexivity]]; constructor; constructor; try exact I; try constructor; discriminate.
Qed.
(** And so do Arrs made with [from_values_unchecked], for which the program chooses the inner type: [==] takes the type
    Any for equal to every type, [inner_type] does not. *)
Theorem C78_unchecked_refuted fs g ids : exists a b, a = arr_from_values_unchecked 1 [] TAny /\ b = arr_from_values_unchecked 2 [] TInt /\
  value_eqb (VArr a) (VArr b) = true /\
  exists c, (forall seen k, c seen = Some k -> scalar_only k) /\ learns fs g ids c 1 [VArr a] [] <> learns fs g ids c 1 [VArr b] [].
Proof.
  eexists _, _. split; [reflexivity|]. split; [reflexivity|]. split; [reflexivity|].
  exists (fun _ => Some (KInner 0)). split; [intros _ k K; injection K as <-; exact I|]. cbn. discriminate.
Qed.
(** Comparing with a container of its own is comparing two held values: for the containers a program holds nothing changes. *)
Theorem C78_eq_containers v w v' w' : equal_values v w -> equal_values v' w' -> value_eqb v v' = value_eqb w w'.
Proof. intros A B. apply eqb_rel; apply rel_eq; assumption. Qed.
End S.


(** ** A concrete case *)
Section Ex.
#[local] Instance ascii : Unicode := {| u_alpha := fun _ => false; u_debug := fun c => [c] |}.
Definition ex_o (i j k : N) : value := VObj (MkObj i [(lit "a", VArr (MkArr j TInt [VInt 1; VInt 2]))] (Some (MkObj k [(lit "b", VFrac (Qmake 1 2))] None))).
(** The program takes field a, then b with its source, builds an Obj of both, writes it, and loads a text. *)
Definition ex_c : client := fun seen =>
  match length seen with
  | 0 => Some (Clients.KField 0 (lit "a")) | 1 => Some (KSource 0 (lit "b")) | 2 => Some (KObj [(lit "x", 1%nat); (lit "y", 2%nat)] (Some 3%nat))
  | 3 => Some (KShow 4) | 4 => Some (KLoad (lit "z: 1+2")) | 5 => Some (KFieldInt 5 (lit "z")) | _ => None
  end%nat.
Example C78_ex : Forall2 equal_values [ex_o 1 2 3] [ex_o 9 8 7] /\ (forall seen k, ex_c seen = Some k -> scalar_only k) /\
  learns (fun _ => no_fs) (fun _ => g0) (fun k => 10 + N.of_nat k) ex_c 10 [ex_o 1 2 3] [] =
  learns (fun _ => no_fs) (fun _ => g_act (bump g0) ODraw) (fun k => 77 + N.of_nat k) ex_c 10 [ex_o 9 8 7] [] /\
  nth_error (learns (fun _ => no_fs) (fun _ => g0) (fun k => 10 + N.of_nat k) ex_c 10 [ex_o 1 2 3] []) 5 = Some ([OInt 3], 0%nat).
Proof.
  assert (W : forall i j k, wf_value any_names (ex_o i j k)).
  { intros i j k. constructor. constructor; [exact I| |].
    - constructor; [|constructor]. apply (proj1 C12_checked_constructors_wf j [VInt 1; VInt 2] (MkArr j TInt [VInt 1; VInt 2])); [repeat constructor|reflexivity].
    - intros p E. injection E as <-. constructor; [exact I| |discriminate]. repeat constructor. }
  assert (E : Forall2 equal_values [ex_o 1 2 3] [ex_o 9 8 7]) by (constructor; [repeat split; auto|constructor]).
  assert (S : forall seen k, ex_c seen = Some k -> scalar_only k).
  { intros seen k K. unfold ex_c in K. destruct (length seen) as [|[|[|[|[|[|m]]]]]]; try discriminate K; injection K as <-; exact I. }
  split; [exact E|]. split; [exact S|]. split; [|vm_compute; reflexivity].
  apply C78_clients; auto; intros _; repeat constructor.
Qed.
End Ex.

Print Assumptions C78_clients.
Print Assumptions C78_equal_iff_not_told_apart.
Print Assumptions C78_calls.
Print Assumptions C78_identity_refuted.
Print Assumptions C78_unchecked_refuted.
