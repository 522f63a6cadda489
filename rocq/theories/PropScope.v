(** * PropScope: names and scopes, C20, C21, C26, C27, C30, C37. *)
From Verif Require Import EvalProofs PropLoad.
From Coq Require String.
Import String.StringSyntax.
Open Scope N_scope.

(** ** Specification *)

(** Names that always have a meaning. *)
Definition builtin (n : str) : Prop :=
  In n [lit "null"; lit "true"; lit "false"; lit "Obj"; lit "Str"; lit "Arr"; lit "Tup"].
(** An item of an object literal that is a field (not a global, not the parent). *)
Definition field_item (f : str) : bool :=
  match f with c :: _ => negb ((c =? c_at) || (c =? c_caret)) | [] => true end.
Definition field_names (items : list (str * expr)) : list str := filter field_item (map fst items).

(** Every unqualified name is built in or the name of a field written earlier in the innermost object
    literal around it ([names]). *)
Inductive scoped : list str -> atom -> Prop :=
| sc_num names w : scoped names (ANum w)
| sc_str names cs : scoped names (AStr cs)
| sc_global names n : scoped names (AVar true n)
| sc_var names n : builtin n \/ In n names -> scoped names (AVar false n)
| sc_gdot names n sub : scoped names (ADot true n sub)
| sc_dot names n sub : builtin n \/ In n names -> scoped names (ADot false n sub)
| sc_un names op a : scoped names a -> scoped names (AUn op a)
| sc_arr names es : Forall (scoped_expr names) es -> scoped names (AArr es)
| sc_tup names es : Forall (scoped_expr names) es -> scoped names (ATup es)
| sc_obj names its : scoped_items [] its -> scoped names (AObj its)
| sc_inc names e p : scoped_expr names e -> (forall e2, p = Some e2 -> scoped_expr names e2) -> scoped names (AInc e p)
with scoped_expr : list str -> expr -> Prop :=
| sc_ex names a l : scoped names a -> Forall (fun p => scoped names (snd p)) l -> scoped_expr names (Ex a l)
with scoped_items : list str -> list (str * expr) -> Prop :=
| sc_nil names : scoped_items names []
| sc_cons names f e its : scoped_expr names e ->
    scoped_items (if field_item f then names ++ [f] else names) its -> scoped_items names ((f, e) :: its).

(** ** Items *)
Lemma kind_field f : kind_of_item f = KField -> field_item f = true.
Proof.
  destruct f as [|c f]; auto. unfold field_item. destruct (N.eqb_spec c 64) as [->|N1]; [discriminate|].
  destruct (N.eqb_spec c 94) as [->|N2]; [destruct f; discriminate|]. reflexivity.
Qed.
Lemma kind_global f : kind_of_item f = KGlobal -> exists r, f = c_at :: r.
Proof.
  destruct f as [|c f]; [discriminate|]. destruct (N.eq_dec c 64) as [->|N1]; [eauto|].
  destruct (N.eq_dec c 94) as [->|N2]; [destruct f; discriminate|]. rewrite kind_letter by auto.
  destruct (mem_str _ _); discriminate.
Qed.
Lemma kind_parent f : kind_of_item f = KParent -> f = [c_caret].
Proof.
  destruct f as [|c f]; [discriminate|]. destruct (N.eq_dec c 64) as [->|N1]; [discriminate|].
  destruct (N.eq_dec c 94) as [->|N2]; [destruct f; [auto|discriminate]|]. rewrite kind_letter by auto.
  destruct (mem_str _ _); discriminate.
Qed.
Lemma kind_at r : kind_of_item (c_at :: r) = KGlobal.
Proof. reflexivity. Qed.

Lemma items_app (ev : list pair_t -> expr -> ES value) its1 its2 : forall fields parent x,
  ev_items ev (its1 ++ its2) fields parent x =
  (do r <- ev_items ev its1 fields parent;; ev_items ev its2 (fst r) (snd r)) x.
Proof.
  induction its1 as [|[f e] its1 IH]; intros fields parent x; [reflexivity|]. cbn [app]. rewrite !ev_items_cons.
  unfold ebind in *. destruct (kind_of_item f); unfold efail, eglobals; auto.
  - destruct (assoc f (fst x)); auto. destruct (ev fields e x) as [[v y]|]; auto. unfold edefine. apply IH.
  - destruct parent; auto. destruct (ev fields e x) as [[[] y]|]; auto.
  - destruct (mem_str _ _); auto. destruct (ev fields e x) as [[v y]|]; auto.
Qed.
Lemma items_shape (ev : list pair_t -> expr -> ES value) its : forall fields parent x r y,
  ev_items ev its fields parent x = Some (r, y) ->
  exists new, fst r = fields ++ new /\ map fst new = field_names its.
Proof.
  induction its as [|[f e] its IH]; intros fields parent x r y E.
  - inversion E; subst. exists []. rewrite app_nil_r. auto.
  - rewrite ev_items_cons in E. unfold field_names in *. cbn [map fst filter].
    destruct (kind_of_item f) eqn:K.
    + apply kind_global in K as (f' & ->). change (field_item (64 :: f')) with false. cbn iota.
      apply ebind_some in E as (g & y1 & E1 & E). destruct (assoc _ g); [discriminate|].
      apply ebind_some in E as (v & y2 & E2 & E). apply ebind_some in E as (u & y3 & E3 & E). eauto.
    + apply kind_parent in K as ->. change (field_item [94]) with false. cbn iota.
      destruct parent; [discriminate|]. apply ebind_some in E as (v & y2 & E2 & E).
      destruct v; try discriminate. eauto.
    + rewrite (kind_field _ K). destruct (mem_str _ _); [discriminate|].
      apply ebind_some in E as (v & y2 & E2 & E). apply IH in E as (new & E1 & E3).
      exists ((f, v) :: new). rewrite E1, <- app_assoc. split; auto. cbn. rewrite E3. reflexivity.
    + discriminate.
Qed.
(** the value of a regular item *)
Lemma items_at (ev : list pair_t -> expr -> ES value) its1 f e its2 fields parent x r y :
  ev_items ev (its1 ++ (f, e) :: its2) fields parent x = Some (r, y) -> kind_of_item f = KField ->
  exists r1 x1 v x2, ev_items ev its1 fields parent x = Some (r1, x1) /\
    mem_str f (map fst (fst r1)) = false /\
    ev (fst r1) e x1 = Some (v, x2) /\
    ev_items ev its2 (fst r1 ++ [(f, v)]) (snd r1) x2 = Some (r, y).
Proof.
  intros E K. rewrite items_app in E. apply ebind_some in E as (r1 & x1 & E1 & E2). rewrite ev_items_cons, K in E2.
  destruct (mem_str _ _) eqn:M; [discriminate|]. apply ebind_some in E2 as (v & x2 & E2 & E3).
  exists r1, x1, v, x2. auto.
Qed.

Lemma assoc_app_l {A} k (l l' : list (str * A)) v : assoc k l = Some v -> assoc k (l ++ l') = Some v.
Proof. induction l as [|[k' v'] l IH]; cbn; [discriminate|]. destruct (str_eqb k' k); auto. Qed.
Lemma assoc_app_r {A} k (l l' : list (str * A)) : ~ In k (map fst l) -> assoc k (l ++ l') = assoc k l'.
Proof.
  induction l as [|[k' v'] l IH]; cbn; auto. intros H. destruct (str_eqb_spec k' k); [subst; tauto|tauto].
Qed.
Lemma assoc_dom {A} k (l : list (str * A)) v : assoc k l = Some v -> In k (map fst l).
Proof. intros E. apply assoc_some in E as (l1 & l2 & -> & _). rewrite map_app. apply in_or_app. right. left. auto. Qed.
Lemma assoc_cons_eq {A} k v (l : list (str * A)) : assoc k ((k, v) :: l) = Some v.
Proof. cbn. rewrite str_eqb_refl. reflexivity. Qed.
Lemma assoc_last (k : str) (v : value) (l : list pair_t) : mem_str k (map fst l) = false -> assoc k (l ++ [(k, v)]) = Some v.
Proof.
  intros M. eapply eq_trans; [apply assoc_app_r|apply assoc_cons_eq]. intros I. apply mem_str_iff in I. congruence.
Qed.
Lemma mem_false f l : mem_str f l = false -> ~ In f l.
Proof. intros H I. apply mem_str_iff in I. congruence. Qed.

Lemma assoc_builtin n : (assoc n constants <> None \/ assoc n keywords <> None) <-> builtin n.
Proof.
  unfold builtin. assert (H : forall A (l : list (str * A)), assoc n l <> None <-> In n (map fst l)).
  { intros A l. pose proof (assoc_none l n) as X. destruct (assoc n l); [|tauto].
    split; [|congruence]. intros _. destruct (in_dec (list_eq_dec N.eq_dec) n (map fst l)) as [?|K]; auto.
    apply X in K. discriminate. }
  rewrite !H. unfold constants, keywords. cbn [map fst In]. tauto.
Qed.
(** Names by cases. *)
Lemma name_cases fields n x v y : ev_name fields false n x = Some (v, y) ->
  builtin n \/ (~ builtin n /\ assoc n fields = Some v /\ y = x).
Proof.
  unfold ev_name. pose proof (assoc_builtin n) as B. destruct (assoc n constants).
  { intros _. left. apply B. left. discriminate. }
  destruct (assoc n keywords). { intros _. left. apply B. right. discriminate. }
  intros E. right. apply elift_some in E. split; auto. rewrite <- B. tauto.
Qed.
Lemma name_field fields n : ~ builtin n -> ev_name fields false n = elift (assoc n fields).
Proof.
  intros N. rewrite <- assoc_builtin in N. unfold ev_name. destruct (assoc n constants); [exfalso; apply N; left; discriminate|].
  destruct (assoc n keywords); [exfalso; apply N; right; discriminate|]. reflexivity.
Qed.
Lemma emap_each {A B} (f : A -> ES B) l : forall x ys y, emap f l x = Some (ys, y) ->
  Forall (fun a => exists x' b y', f a x' = Some (b, y')) l.
Proof.
  induction l as [|a l IH]; intros x ys y E; [constructor|]. cbn [emap] in E.
  apply ebind_some in E as (b & x1 & E1 & E). apply ebind_some in E as (bs & x2 & E2 & _).
  constructor; eauto.
Qed.
Lemma fresh_ret {A} (k : N -> A) x a y : (do i <- fresh;; eret (k i)) x = Some (a, y) ->
  a = k (g_next (sh_g (snd x))).
Proof. destruct x as [gl sh]. cbn. intros E. inversion E. reflexivity. Qed.
Lemma deep_some {A} lim d (m : ES A) x a y : deep lim d m x = Some (a, y) -> m x = Some (a, y).
Proof. unfold deep. destruct (lim d); [auto|discriminate]. Qed.

Section P.
Context `{U : Unicode}.

Lemma legal_not_builtin f : legal_field f -> ~ builtin f.
Proof.
  intros (c & r & -> & _ & _ & N) B. apply N. unfold builtin, reserved_words in *. right. exact B.
Qed.

(** ** C20 *)

Lemma items_scoped inc lim d its :
  Forall (fun p => forall fields x v y, ev_expr inc lim d fields (snd p) x = Some (v, y) ->
    scoped_expr (map fst fields) (snd p)) its ->
  forall fields parent x r y, ev_items (ev_expr inc lim d) its fields parent x = Some (r, y) ->
  scoped_items (map fst fields) its.
Proof.
  induction 1 as [|[f e] its He Hits IH]; intros fields parent x r y E; [constructor|].
  cbn [snd] in He. rewrite ev_items_cons in E. destruct (kind_of_item f) eqn:K.
  - apply ebind_some in E as (g & y1 & E1 & E). destruct (assoc _ g); [discriminate|].
    apply ebind_some in E as (v & y2 & E2 & E). apply ebind_some in E as (u & y3 & E3 & E).
    apply kind_global in K as (f' & ->). constructor; eauto. change (field_item (64 :: f')) with false. cbn iota. eauto.
  - destruct parent; [discriminate|]. apply ebind_some in E as (v & y2 & E2 & E). destruct v; try discriminate.
    apply kind_parent in K as ->. constructor; eauto. change (field_item [94]) with false. cbn iota. eauto.
  - destruct (mem_str _ _); [discriminate|]. apply ebind_some in E as (v & y2 & E2 & E).
    constructor; eauto. rewrite (kind_field _ K). apply IH in E. rewrite map_app in E. exact E.
  - discriminate.
Qed.
Lemma ev_scoped inc lim :
  (forall a d fields x v y, ev_atom inc lim d fields a x = Some (v, y) -> scoped (map fst fields) a) /\
  (forall e d fields x v y, ev_expr inc lim d fields e x = Some (v, y) -> scoped_expr (map fst fields) e).
Proof.
  assert (NAME : forall fields n x v y, ev_name fields false n x = Some (v, y) -> builtin n \/ In n (map fst fields)).
  { intros fields n x v y E. apply name_cases in E as [B|(_ & E & _)]; auto. right. eapply assoc_dom; eauto. }
  apply ast_ind.
  - constructor.
  - constructor.
  - intros g n d fields x v y E. destruct g; [constructor|]. constructor. eapply NAME. exact E.
  - intros g n sub IH d fields x v y E. destruct g; [constructor|]. constructor.
    rewrite ev_dot in E. apply ebind_some in E as (v0 & y0 & E & _). eapply NAME; eauto.
  - intros op a IH d fields x v y E. rewrite ev_un in E. apply ebind_some in E as (v0 & y0 & E & _).
    constructor. eauto.
  - intros es IH d fields x v y E. rewrite ev_arr in E. apply deep_some, ebind_some in E as (vs & y0 & E & _).
    constructor. apply emap_each in E. rewrite Forall_forall in *. intros e He. destruct (E e He) as (x' & b & y' & E').
    eapply IH; eauto.
  - intros es IH d fields x v y E. rewrite ev_tup in E. apply deep_some, ebind_some in E as (vs & y0 & E & _).
    constructor. apply emap_each in E. rewrite Forall_forall in *. intros e He. destruct (E e He) as (x' & b & y' & E').
    eapply IH; eauto.
  - intros its IH d fields x v y E. rewrite ev_obj in E. apply deep_some, ebind_some in E as (r & y0 & E & _).
    constructor. eapply (items_scoped inc lim (d + 1) its) with (fields := []); eauto.
    eapply Forall_impl; [|exact IH]. cbn. intros p Hp fl x0 v0 z E0. eapply Hp; eauto.
  - intros e p IH IH2 d fields x v y E. rewrite ev_inc in E. apply deep_some, ebind_some in E as (w & y0 & E & E').
    constructor; eauto. intros e2 ->. destruct w; try discriminate.
    apply ebind_some in E' as (k & y1 & _ & E'). destruct k; [|discriminate].
    apply ebind_some in E' as (v2 & y2 & E2 & _). eapply IH2; eauto.
  - intros a l IHa IHl d fields x v y E. rewrite ev_expr_Ex in E. apply ebind_some in E as (v0 & y0 & E & E').
    apply ebind_some in E' as (vs & y1 & E1 & _). constructor; eauto.
    apply emap_each in E1. rewrite Forall_forall in *. intros p Hp. destruct (E1 p Hp) as (x' & b & y' & E2).
    destruct p as [op b']. apply ebind_some in E2 as (w & y2 & E2 & _). eapply (IHl (op, b')); eauto.
Qed.

(** A text that loads uses every name within its scope; so a name that was not defined earlier in the
    same object literal is an error. *)
Theorem C20_names_in_scope fs g items text o : r_doc items text ->
  from_str fs g text = Some (OOk o) -> scoped_items [] items.
Proof.
  intros H E. apply (str_ok fs g items text H) in E as (x & E). unfold str_meaning, meaning, ev_doc in E.
  apply ebind_some in E as (r & y & E & _). eapply (items_scoped _ _ _ items) with (fields := []); [|exact E].
  apply Forall_forall. intros p _ fl x0 v0 z E0. eapply ev_scoped; eauto.
Qed.
Theorem C20_undefined_is_error fs g items text : r_doc items text -> ~ scoped_items [] items ->
  exists e, from_str fs g text = Some (OErr e).
Proof.
  intros H N. apply (str_err fs g items text H). destruct (str_meaning fs limit64 g items) as [[o x]|] eqn:E; auto.
  exfalso. apply N. eapply C20_names_in_scope; eauto. apply (str_ok fs g items text H). eauto.
Qed.
(** The same for files, hence for everything that is included. *)
Theorem C20_names_in_scope_file fs g path items text o : readable fs path text -> r_doc items text ->
  from_file fs g path = Some (OOk o) -> scoped_items [] items.
Proof.
  intros R H E. apply (file_ok fs g path items text R H) in E as (x & E). unfold meaning, ev_doc in E.
  apply ebind_some in E as (r & y & E & _). eapply (items_scoped _ _ _ items) with (fields := []); [|exact E].
  apply Forall_forall. intros p _ fl x0 v0 z E0. eapply ev_scoped; eauto.
Qed.
(** The value of an object literal does not depend on the fields around it. *)
Theorem C20_literal_is_closed inc lim d fields fields' its x :
  ev_atom inc lim d fields (AObj its) x = ev_atom inc lim d fields' (AObj its) x.
Proof. reflexivity. Qed.

(** A name denotes the field of that name, in any object literal ... *)
Lemma items_fields_stay (ev : list pair_t -> expr -> ES value) its fields parent x r y n v :
  ev_items ev its fields parent x = Some (r, y) -> assoc n fields = Some v -> assoc n (fst r) = Some v.
Proof. intros E A. apply items_shape in E as (new & -> & _). apply assoc_app_l. exact A. Qed.
Lemma items_var inc lim d its1 f e its2 h its3 fields parent x r y :
  ev_items (ev_expr inc lim d) (its1 ++ (f, e) :: its2 ++ (h, Ex (AVar false f) []) :: its3) fields parent x = Some (r, y) ->
  legal_field f -> legal_field h ->
  exists v, assoc f (fst r) = Some v /\ assoc h (fst r) = Some v.
Proof.
  intros E Hf Hh. apply items_at in E as (r1 & x1 & v & x2 & E1 & M & E2 & E3); [|apply legal_kind; auto].
  apply items_at in E3 as (r2 & x3 & w & x4 & E4 & M2 & E5 & E6); [|apply legal_kind; auto].
  assert (A : assoc f (fst r2) = Some v).
  { eapply items_fields_stay; [exact E4|]. apply assoc_last; auto. }
  rewrite ev_atom_expr in E5. change (ev_name (fst r2) false f x3 = Some (w, x4)) in E5.
  rewrite (name_field _ _ (legal_not_builtin f Hf)), A in E5. inversion E5; subst.
  exists w. split.
  - eapply items_fields_stay; [exact E6|]. apply assoc_app_l. exact A.
  - eapply items_fields_stay; [exact E6|]. apply assoc_last; auto.
Qed.
Theorem C20_variable_is_earlier_field_nested inc lim d fields its1 f e its2 h its3 x o y :
  ev_atom inc lim d fields (AObj (its1 ++ (f, e) :: its2 ++ (h, Ex (AVar false f) []) :: its3)) x = Some (VObj o, y) ->
  legal_field f -> legal_field h ->
  exists v, assoc f (obj_pairs o) = Some v /\ assoc h (obj_pairs o) = Some v.
Proof.
  intros E Hf Hh. rewrite ev_obj in E. apply deep_some, ebind_some in E as (r & y0 & E & E').
  apply fresh_ret in E'. eapply items_var in E; eauto.
  first [injection E' as ->|subst o]; exact E.
Qed.
(** ... and at the top of a text. *)
Theorem C20_variable_is_earlier_field fs g its1 f e its2 h its3 text o :
  r_doc (its1 ++ (f, e) :: its2 ++ (h, Ex (AVar false f) []) :: its3) text ->
  legal_field f -> legal_field h -> from_str fs g text = Some (OOk o) ->
  exists v, assoc f (obj_pairs o) = Some v /\ assoc h (obj_pairs o) = Some v.
Proof.
  intros H Hf Hh E. apply (str_ok fs g _ _ H) in E as (x & E). unfold str_meaning, meaning, ev_doc in E.
  apply ebind_some in E as (r & y & E & E'). apply fresh_ret in E'. eapply items_var in E; eauto.
  first [injection E' as ->|subst o]; exact E.
Qed.

(** ** C26 *)

(** All texts of a document load alike. *)
Theorem C26_layout_irrelevant fs g items t1 t2 : r_doc items t1 -> r_doc items t2 ->
  (forall o, from_str fs g t1 = Some (OOk o) <-> from_str fs g t2 = Some (OOk o)) /\
  ((exists e, from_str fs g t1 = Some (OErr e)) <-> (exists e, from_str fs g t2 = Some (OErr e))).
Proof.
  intros H1 H2. split.
  - intros o. rewrite (str_ok fs g _ _ H1), (str_ok fs g _ _ H2). reflexivity.
  - rewrite (str_err fs g _ _ H1), (str_err fs g _ _ H2). reflexivity.
Qed.

(** ** C27 *)
Theorem C27_field_order fs g items text o : r_doc items text ->
  from_str fs g text = Some (OOk o) -> map fst (obj_pairs o) = field_names items.
Proof.
  intros H E. apply (str_ok fs g _ _ H) in E as (x & E). unfold str_meaning, meaning, ev_doc in E.
  apply ebind_some in E as (r & y & E & E'). apply fresh_ret in E'. apply items_shape in E as (new & E & N).
  first [injection E' as ->|subst o].
  cbn [obj_pairs]. rewrite E. exact N.
Qed.
Theorem C27_field_order_nested inc lim d fields its x o y :
  ev_atom inc lim d fields (AObj its) x = Some (VObj o, y) -> map fst (obj_pairs o) = field_names its.
Proof.
  intros E. rewrite ev_obj in E. apply deep_some, ebind_some in E as (r & y0 & E & E').
  apply fresh_ret in E'. apply items_shape in E as (new & E & N).
  first [injection E' as ->|subst o]. cbn [obj_pairs]. rewrite E. exact N.
Qed.
End P.
