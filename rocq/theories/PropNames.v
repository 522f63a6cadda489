(** * PropNames: globals, dot access, include keywords; C21, C27 (writing), C30, C37. *)
From Verif Require Import PropScope EvalProofs PropLoad Format Render.
From Coq Require String.
Import String.StringSyntax.
Open Scope N_scope.

Section P.
Context `{U : Unicode}.

Lemma doc_items fs lim file sh items o x : meaning fs lim file sh items = Some (o, x) ->
  exists r y, ev_items (ev_expr (include_meaning fs file) lim 1) items [] None ([], sh) = Some (r, y) /\
    o = MkObj (g_next (sh_g (snd y))) (fst r) (snd r).
Proof.
  unfold meaning, ev_doc. intros E. apply ebind_some in E as (r & y & E & E'). apply fresh_ret in E'. eauto.
Qed.
Lemma items_global (ev : list pair_t -> expr -> ES value) its1 n e its2 fields parent x r y :
  ev_items ev (its1 ++ (c_at :: n, e) :: its2) fields parent x = Some (r, y) ->
  exists r1 x1 v x2, ev_items ev its1 fields parent x = Some (r1, x1) /\
    assoc (c_at :: n) (fst x1) = None /\
    ev (fst r1) e x1 = Some (v, x2) /\
    ev_items ev its2 (fst r1) (snd r1) ((c_at :: n, v) :: fst x2, snd x2) = Some (r, y).
Proof.
  intros E. rewrite items_app in E. apply ebind_some in E as (r1 & x1 & E1 & E2). rewrite ev_items_cons in E2.
  cbn [kind_of_item] in E2. apply ebind_some in E2 as (g & y1 & E2 & E). inversion E2; subst.
  destruct (assoc _ (fst y1)) eqn:A; [discriminate|].
  apply ebind_some in E as (v & y2 & E3 & E). apply ebind_some in E as (u & y3 & E4 & E). inversion E4; subst.
  exists r1, y1, v, y2. auto.
Qed.

(** ** C21 *)

(** An include neither sees nor changes the globals of the file it is written in. *)
Theorem C21_include_isolated fs file k p globals sh v globals' sh' :
  include_meaning fs file k p (globals, sh) = Some (v, (globals', sh')) ->
  globals' = globals /\
  forall other, include_meaning fs file k p (other, sh) = Some (v, (other, sh')).
Proof.
  intros E. pose proof (inc_globals fs file _ _ _ _ _ E) as G. cbn in G. split; auto. intros other.
  apply (inc_globals_indep fs file k p globals other sh v _ E).
Qed.
(** A global that has a value keeps it, whatever is evaluated next, at any depth. *)
Theorem C21_global_stays fs file lim d fields e x v y n w :
  wfvals (snd x) ->
  ev_expr (include_meaning fs file) lim d fields e x = Some (v, y) ->
  assoc (c_at :: n) (fst x) = Some w -> assoc (c_at :: n) (fst y) = Some w.
Proof. intros W E A. apply (step_expr fs file) in E. destruct (E W) as (_ & [L _] & _). auto. Qed.

Lemma global_defined fs file lim d its1 n e its2 fields parent x r y :
  wfvals (snd x) ->
  ev_items (ev_expr (include_meaning fs file) lim d) (its1 ++ (c_at :: n, e) :: its2) fields parent x = Some (r, y) ->
  wfvals (snd y) /\ exists v, assoc (c_at :: n) (fst y) = Some v.
Proof.
  intros W E. apply items_global in E as (r1 & x1 & v & x2 & E1 & A & E2 & E3).
  apply (step_items fs file) in E1. destruct (E1 W) as (W1 & _). apply (step_expr fs file) in E2.
  destruct (E2 W1) as (W2 & _). apply (step_items fs file) in E3. destruct (E3 W2) as (W3 & [L _] & _).
  split; [exact W3|]. exists v. apply L. apply assoc_cons_eq.
Qed.
(** A second definition at the same level is an error. *)
Theorem C21_redefinition_is_error fs g its1 n e1 its2 e2 its3 text :
  r_doc (its1 ++ (c_at :: n, e1) :: its2 ++ (c_at :: n, e2) :: its3) text ->
  exists e, from_str fs g text = Some (OErr e).
Proof.
  intros H. apply (str_err fs g _ _ H). unfold str_meaning.
  destruct (meaning _ _ _ _ _) as [[o x]|] eqn:M; auto. exfalso. apply doc_items in M as (r & y & E & _).
  replace (its1 ++ (c_at :: n, e1) :: its2 ++ (c_at :: n, e2) :: its3)
    with ((its1 ++ (c_at :: n, e1) :: its2) ++ (c_at :: n, e2) :: its3) in E by (rewrite <- app_assoc; reflexivity).
  apply items_global in E as (r1 & x1 & v & x2 & E1 & A & _).
  apply (global_defined fs None) in E1 as (_ & w & B); [congruence|constructor].
Qed.
(** Also of a definition nested in a later field of the same file. *)
Theorem C21_nested_redefinition_is_error fs g its1 n e1 its2 h e2 its its' text :
  r_doc (its1 ++ (c_at :: n, e1) :: its2 ++ [(h, Ex (AObj (its ++ (c_at :: n, e2) :: its')) [])]) text ->
  exists e, from_str fs g text = Some (OErr e).
Proof.
  intros H. apply (str_err fs g _ _ H). unfold str_meaning.
  destruct (meaning _ _ _ _ _) as [[o x]|] eqn:M; auto. exfalso. apply doc_items in M as (r & y & E & _).
  replace (its1 ++ (c_at :: n, e1) :: its2 ++ [(h, Ex (AObj (its ++ (c_at :: n, e2) :: its')) [])])
    with ((its1 ++ (c_at :: n, e1) :: its2) ++ [(h, Ex (AObj (its ++ (c_at :: n, e2) :: its')) [])]) in E
    by (rewrite <- app_assoc; reflexivity).
  rewrite items_app in E. apply ebind_some in E as (r1 & x1 & E1 & E2).
  apply (global_defined fs None) in E1 as (W & w & B); [|constructor].
  assert (N : forall fields v z, ev_expr (include_meaning fs None) limit64 1 fields
     (Ex (AObj (its ++ (c_at :: n, e2) :: its')) []) x1 <> Some (v, z)).
  { intros fields v z E. rewrite ev_atom_expr, ev_obj in E. apply deep_some, ebind_some in E as (r2 & z2 & E & _).
    apply items_global in E as (r3 & x3 & v3 & x4 & E3 & A & _).
    apply (step_items fs None) in E3. destruct (E3 W) as (_ & [L _] & _). apply L in B. congruence. }
  rewrite ev_items_cons in E2. destruct (kind_of_item h).
  - apply ebind_some in E2 as (g0 & y1 & E2 & E3). inversion E2; subst. destruct (assoc h (fst y1)); [discriminate|].
    apply ebind_some in E3 as (v & z & E3 & _). eapply N; eauto.
  - destruct (snd r1); [discriminate|]. apply ebind_some in E2 as (v & z & E3 & _). eapply N; eauto.
  - destruct (mem_str _ _); [discriminate|]. apply ebind_some in E2 as (v & z & E3 & _). eapply N; eauto.
  - discriminate.
Qed.
(** Once defined, a global can be read, in the same object and in nested ones. *)
Theorem C21_visible_once_defined fs g its1 n e its2 h k text o text' :
  r_doc (its1 ++ (c_at :: n, e) :: its2) text -> from_str fs g text = Some (OOk o) ->
  legal_field h -> legal_field k -> ~ In h (field_names (its1 ++ (c_at :: n, e) :: its2)) ->
  r_doc (its1 ++ (c_at :: n, e) :: its2 ++ [(h, Ex (AObj [(k, Ex (AVar true n) [])]) [])]) text' ->
  exists o' v p, from_str fs g text' = Some (OOk o') /\
    obj_pairs o' = obj_pairs o ++ [(h, VObj p)] /\ obj_pairs p = [(k, v)].
Proof.
  intros H E Hh Hk Nh H'. apply (str_ok fs g _ _ H) in E as (x & M). unfold str_meaning in M.
  apply doc_items in M as (r & y & E & ->). pose proof E as E0.
  apply (global_defined fs None) in E0 as (W & v & A); [|constructor].
  pose proof (items_shape _ _ _ _ _ _ _ E) as (new & Fr & Nn). cbn [app] in Fr.
  assert (M' : exists i j x', str_meaning fs limit64 g (its1 ++ (c_at :: n, e) :: its2 ++ [(h, Ex (AObj [(k, Ex (AVar true n) [])]) [])]) =
     Some (MkObj i (fst r ++ [(h, VObj (MkObj j [(k, v)] None))]) (snd r), x')).
  { unfold str_meaning, meaning, ev_doc.
    replace (its1 ++ (c_at :: n, e) :: its2 ++ [(h, Ex (AObj [(k, Ex (AVar true n) [])]) [])])
      with ((its1 ++ (c_at :: n, e) :: its2) ++ [(h, Ex (AObj [(k, Ex (AVar true n) [])]) [])])
      by (rewrite <- app_assoc; reflexivity).
    unfold ebind at 1. rewrite items_app. unfold ebind at 1. rewrite E. rewrite ev_items_cons, (legal_kind h Hh).
    replace (mem_str h (map fst (fst r))) with false.
    2:{ symmetry. destruct (mem_str h _) eqn:Mm; auto. apply mem_str_iff in Mm. rewrite Fr, Nn in Mm. contradiction. }
    unfold ebind at 1. rewrite ev_atom_expr, ev_obj. unfold deep. change (limit64 (1 + 1)) with true. cbn iota.
    unfold ebind at 1. rewrite ev_items_cons, (legal_kind k Hk). cbn [mem_str map existsb].
    unfold ebind at 1. rewrite ev_atom_expr. cbn [ev_atom ev_name].
    unfold ebind at 1, eglobals. rewrite A. cbn [elift]. unfold eret at 1. cbn [ev_items].
    destruct y as [gl sh]. cbn. do 3 eexists. reflexivity. }
  destruct M' as (i & j & x' & M').
  eexists _, v, (MkObj j [(k, v)] None). split; [apply (str_ok fs g _ _ H'); eauto|]. auto.
Qed.


(** ** A document with one more field *)
Lemma doc_snoc fs g its h e r y : legal_field h -> ~ In h (field_names its) ->
  ev_items (ev_expr (include_meaning fs None) limit64 1) its [] None ([], init_sh g) = Some (r, y) ->
  match ev_expr (include_meaning fs None) limit64 1 (fst r) e y with
  | Some (v, z) => exists x, str_meaning fs limit64 g (its ++ [(h, e)]) =
      Some (MkObj (g_next (sh_g (snd z))) (fst r ++ [(h, v)]) (snd r), x)
  | None => str_meaning fs limit64 g (its ++ [(h, e)]) = None
  end.
Proof.
  intros Hh Nh E. pose proof (items_shape _ _ _ _ _ _ _ E) as (new & Fr & Nn). cbn [app] in Fr.
  assert (M : str_meaning fs limit64 g (its ++ [(h, e)]) =
    match ev_expr (include_meaning fs None) limit64 1 (fst r) e y with
    | Some (v, z) => (do i <- fresh;; eret (MkObj i (fst r ++ [(h, v)]) (snd r))) z
    | None => None
    end).
  { unfold str_meaning, meaning, ev_doc. unfold ebind at 1. rewrite items_app. unfold ebind at 1. rewrite E.
    rewrite ev_items_cons, (legal_kind h Hh).
    replace (mem_str h (map fst (fst r))) with false.
    2:{ symmetry. destruct (mem_str h _) eqn:Mm; auto. apply mem_str_iff in Mm. rewrite Fr, Nn in Mm. contradiction. }
    unfold ebind at 1. destruct (ev_expr _ _ _ _ _ _) as [[v z]|]; reflexivity. }
  rewrite M. destruct (ev_expr _ _ _ _ _ _) as [[v [gl sh]]|]; [|reflexivity]. eexists. reflexivity.
Qed.

(** ** C30 *)

(** In any scope, [n.m] with [n] an Obj is the value of its own field [m]. *)
Theorem C30_dot_is_own_field inc lim d fields glob n m x o y :
  legal_field m -> ev_name fields glob n x = Some (VObj o, y) ->
  ev_atom inc lim d fields (ADot glob n (AVar false m)) x =
  match assoc m (obj_pairs o) with Some v => Some (v, y) | None => None end.
Proof.
  intros Hm E. rewrite ev_dot. unfold ebind. rewrite E.
  change (ev_atom inc lim (d + 1) (obj_pairs o) (AVar false m)) with (ev_name (obj_pairs o) false m).
  rewrite (name_field _ _ (legal_not_builtin m Hm)). destruct (assoc m (obj_pairs o)); reflexivity.
Qed.
(** As texts: append [h: f.m] to a document that loads and in which [f] is an Obj. *)
Theorem C30_dot_in_texts fs g its text o f p h m text' :
  r_doc its text -> from_str fs g text = Some (OOk o) -> assoc f (obj_pairs o) = Some (VObj p) ->
  legal_field m -> legal_field h -> ~ In h (field_names its) ->
  r_doc (its ++ [(h, Ex (ADot false f (AVar false m)) [])]) text' ->
  (forall v, assoc m (obj_pairs p) = Some v ->
     exists o', from_str fs g text' = Some (OOk o') /\ obj_pairs o' = obj_pairs o ++ [(h, v)]) /\
  (assoc m (obj_pairs p) = None -> exists e, from_str fs g text' = Some (OErr e)).
Proof.
  intros H E A Hm Hh Nh H'. 
  assert (Hf : ~ builtin f).
  { assert (L : loaded fs g o) by (left; eauto).
    intros B. assert (G : wf_obj good_names o).
    { pose proof (str_spec fs g text) as S. unfold from_str in E. destruct (parse_obj_str fs g text) as [[] ]; try discriminate.
      inversion E; subst. apply S. }
    inversion G as [i ps par Gn _ _ Eo]; subst. destruct Gn as [_ Gn]. apply assoc_dom in A. rewrite Forall_forall in Gn.
    apply Gn in A. revert B. apply legal_not_builtin. exact A. }
  apply (str_ok fs g _ _ H) in E as (x & M). unfold str_meaning in M. apply doc_items in M as (r & y & E & ->).
  cbn [obj_pairs] in *.
  assert (D : ev_expr (include_meaning fs None) limit64 1 (fst r) (Ex (ADot false f (AVar false m)) []) y =
     match assoc m (obj_pairs p) with Some v => Some (v, y) | None => None end).
  { rewrite ev_atom_expr. apply C30_dot_is_own_field; auto. rewrite (name_field _ _ Hf), A. reflexivity. }
  pose proof (doc_snoc fs g its h (Ex (ADot false f (AVar false m)) []) r y Hh Nh E) as S. rewrite D in S. split.
  - intros v Ev. rewrite Ev in S. destruct S as (x' & S). eexists. split; [apply (str_ok fs g _ _ H'); eauto|reflexivity].
  - intros Ev. rewrite Ev in S. apply (str_err fs g _ _ H'). exact S.
Qed.

(** ** C37 *)

Lemma keyword_name n k : assoc n keywords = Some k -> assoc n constants = None.
Proof.
  unfold keywords, constants. cbn [assoc].
  repeat match goal with |- context [str_eqb ?a n] => destruct (str_eqb_spec a n) as [<-|]; [intros _; reflexivity|] end.
  discriminate.
Qed.
Lemma ev_kw inc lim d fields n k x : assoc n keywords = Some k ->
  ev_expr inc lim d fields (Ex (AVar false n) []) x = (do o <- esentinel k;; eret (VObj o)) x.
Proof.
  intros K. rewrite ev_atom_expr. change (ev_atom inc lim d fields (AVar false n)) with (ev_name fields false n).
  unfold ev_name. rewrite (keyword_name n k K), K. reflexivity.
Qed.
Lemma sentinel_some k x : exists i y, esentinel k x = Some (obj_empty i, y) /\ g_sent (sh_g (snd y)) k = Some i /\ fst y = fst x.
Proof.
  destruct x as [gl sh]. unfold esentinel. cbn [snd]. destruct (g_sent (sh_g sh) k) as [i|] eqn:S.
  - exists i, (gl, sh). auto.
  - eexists _, _. split; [reflexivity|]. split; [|reflexivity]. cbn [snd sh_g set_g]. apply sent_new_self.
Qed.
Lemma sentinel_hit k x i : g_sent (sh_g (snd x)) k = Some i -> esentinel k x = Some (obj_empty i, x).
Proof. unfold esentinel. intros ->. reflexivity. Qed.

(** A keyword used as a value is an empty Obj. *)
Theorem C37_keyword_is_empty_obj fs g f w n k : legal_field f -> ws w -> assoc n keywords = Some k ->
  exists i j, from_str fs g (f ++ lit ":" ++ w ++ n) = Some (OOk (MkObj j [(f, VObj (MkObj i [] None))] None)).
Proof.
  intros Hf Hw K. change (f ++ lit ":" ++ w ++ n) with (f ++ c_colon :: w ++ n).
  assert (R : r_expr (Ex (AVar false n) []) n).
  { apply atom_expr. apply (r_var false n). unfold keywords in K. cbn [assoc] in K.
    repeat match type of K with context [str_eqb ?a n] => destruct (str_eqb_spec a n) as [<-|]; [
      eexists _, _; split; [reflexivity|]; split; [left; reflexivity|]; repeat constructor; reflexivity|] end.
    discriminate. }
  destruct (sentinel_some k ([], init_sh g)) as (i & y & S & _).
  exists i, (g_next (sh_g (snd y))). apply (one_ok fs g f (Ex (AVar false n) []) n w _ Hf R Hw).
  exists (VObj (MkObj i [] None)), y. split; [|reflexivity]. unfold expr_meaning. rewrite (ev_kw _ _ _ _ n k _ K).
  unfold ebind. rewrite S. reflexivity.
Qed.

(** A field holding a keyword acts as that keyword: the texts with [<f e>] and with [<K e>] load alike. *)
Theorem C37_variable_acts_as_keyword fs g its1 f n k its2 h e its3 t1 t2 :
  assoc n keywords = Some k -> legal_field f ->
  r_doc (its1 ++ (f, Ex (AVar false n) []) :: its2 ++ (h, Ex (AInc (Ex (AVar false f) []) (Some e)) []) :: its3) t1 ->
  r_doc (its1 ++ (f, Ex (AVar false n) []) :: its2 ++ (h, Ex (AInc (Ex (AVar false n) []) (Some e)) []) :: its3) t2 ->
  forall o, from_str fs g t1 = Some (OOk o) <-> from_str fs g t2 = Some (OOk o).
Proof.
  intros K Hf H1 H2 o. rewrite (str_ok fs g _ _ H1), (str_ok fs g _ _ H2).
  set (A1 := its1 ++ _) at 1. set (A2 := its1 ++ _).
  assert (E : str_meaning fs limit64 g A1 = str_meaning fs limit64 g A2); [|rewrite E; reflexivity].
  assert (L : forall (l l' : list (str * expr)) a a' b, l ++ a :: l' ++ a' :: b = (l ++ a :: l') ++ a' :: b)
    by (intros; rewrite <- app_assoc; reflexivity).
  unfold str_meaning, meaning, ev_doc, ebind, A1, A2. rewrite !L, !items_app. unfold ebind.
  rewrite !items_app. unfold ebind.
  destruct (ev_items _ its1 _ _ _) as [[r1 x1]|] eqn:E1; [|reflexivity].
  rewrite !ev_items_cons, (legal_kind f Hf).
  destruct (mem_str f (map fst (fst r1))) eqn:M; [reflexivity|].
  unfold ebind. rewrite (ev_kw _ _ _ _ n k _ K). unfold ebind.
  destruct (sentinel_some k x1) as (i & x2 & S & Sg & _). rewrite S. unfold eret.
  destruct (ev_items _ its2 _ _ _) as [[r2 x3]|] eqn:E2; [|reflexivity].
  assert (W0 : wfvals (snd (([], init_sh g) : est))) by constructor.
  apply (step_items fs None) in E1. destruct (E1 W0) as (W1 & _).
  assert (W2 : wfvals (snd x2)). { apply (st_step_sent x1 k _ _ S). exact W1. }
  pose proof E2 as E2'. apply (step_items fs None) in E2'. destruct (E2' W2) as (W3 & [_ [_ Gl]] & _).
  assert (S3 : g_sent (sh_g (snd x3)) k = Some i). { specialize (Gl k). rewrite Sg in Gl. exact Gl. }
  assert (V : assoc f (fst r2) = Some (VObj (obj_empty i))).
  { eapply items_fields_stay; [exact E2|]. apply assoc_last. exact M. }
  assert (EQ : ev_expr (include_meaning fs None) limit64 1 (fst r2) (Ex (AInc (Ex (AVar false f) []) (Some e)) []) x3 =
               ev_expr (include_meaning fs None) limit64 1 (fst r2) (Ex (AInc (Ex (AVar false n) []) (Some e)) []) x3).
  { rewrite !ev_atom_expr, !ev_inc. unfold deep. destruct (limit64 (1 + 1)); [|reflexivity]. unfold ebind.
    rewrite (ev_kw _ _ _ _ n k _ K). unfold ebind. rewrite (sentinel_hit k x3 i S3). unfold eret.
    rewrite ev_atom_expr. change (ev_atom (include_meaning fs None) limit64 (1 + 1) (fst r2) (AVar false f)) with (ev_name (fst r2) false f).
    rewrite (name_field _ _ (legal_not_builtin f Hf)), V. reflexivity. }
  rewrite !ev_items_cons. unfold ebind, eglobals. destruct (kind_of_item h).
  - destruct (assoc h (fst x3)); [reflexivity|]. rewrite EQ. reflexivity.
  - destruct (snd r2); [reflexivity|]. rewrite EQ. reflexivity.
  - destruct (mem_str h _); [reflexivity|]. rewrite EQ. reflexivity.
  - reflexivity.
Qed.

(** An ordinary Obj never acts as a keyword: including through a field that holds an object literal,
    empty or not, is an error. *)
Definition plain (i : N) (g : gstate) : Prop := i < g_next g /\ forall k, g_sent g k <> Some i.
Lemma plain_later i g g' : plain i g -> g_later g g' -> plain i g'.
Proof.
  intros [A B] [C D]. split; [lia|]. intros k E. specialize (D k). specialize (B k).
  destruct (g_sent g k); [congruence|]. rewrite E in D. lia.
Qed.
Lemma keyword_plain o ks : forall x, wfvals (snd x) -> plain (obj_id o) (sh_g (snd x)) ->
  exists y, ev_keyword o ks x = Some (None, y).
Proof.
  induction ks as [|k ks IH]; intros x W P; [eexists; reflexivity|]. cbn [ev_keyword]. unfold ebind.
  destruct (sentinel_some k x) as (i & y & S & Sg & _). rewrite S.
  pose proof (st_step_sent x k _ _ S W) as (W' & [_ G] & _). pose proof (plain_later _ _ _ P G) as P'.
  destruct (N.eqb_spec (obj_id o) (obj_id (obj_empty i))) as [E|]; [|auto].
  exfalso. destruct P' as [_ P']. apply (P' k). rewrite E. exact Sg.
Qed.
Theorem C37_ordinary_obj_is_no_keyword fs g its1 f its its2 h p its3 text :
  g_ok g -> legal_field f ->
  r_doc (its1 ++ (f, Ex (AObj its) []) :: its2 ++ (h, Ex (AInc (Ex (AVar false f) []) p) []) :: its3) text ->
  exists e, from_str fs g text = Some (OErr e).
Proof.
  intros G Hf H. apply (str_err fs g _ _ H). unfold str_meaning.
  destruct (meaning _ _ _ _ _) as [[o x]|] eqn:M; auto. exfalso. apply doc_items in M as (r & y & E & _).
  apply items_at in E as (r1 & x1 & v & x2 & E1 & Mf & E2 & E3); [|apply legal_kind; auto].
  assert (W0 : wfvals (snd (([], init_sh g) : est))) by constructor.
  pose proof (step_items fs None _ _ _ _ _ _ _ _ E1 W0) as (W1 & _ & G1). specialize (G1 G).
  pose proof (step_expr fs None _ _ _ _ _ _ _ E2 W1) as (W2 & _ & G2). specialize (G2 G1).
  (* the literal *)
  assert (P : exists q, v = VObj q /\ plain (obj_id q) (sh_g (snd x2))).
  { rewrite ev_atom_expr, ev_obj in E2. apply deep_some, ebind_some in E2 as (r0 & [gl sh] & E0 & E2).
    pose proof (step_items fs None _ _ _ _ _ _ _ _ E0 W1) as (_ & _ & G0). specialize (G0 G1).
    cbn in E2. inversion E2; subst. eexists. split; [reflexivity|]. cbn [snd] in G0.
    destruct (own_bump _ G0) as (N1 & N2 & _). split; [exact N1|exact N2]. }
  destruct P as (q & -> & P).
  rewrite items_app in E3. apply ebind_some in E3 as (r2 & x3 & E4 & E5).
  assert (V : assoc f (fst r2) = Some (VObj q)).
  { eapply items_fields_stay; [exact E4|]. apply assoc_last. exact Mf. }
  pose proof (step_items fs None _ _ _ _ _ _ _ _ E4 W2) as (W3 & [_ L3] & _).
  pose proof (plain_later _ _ _ P L3) as P3.
  assert (N : forall w z, ev_expr (include_meaning fs None) limit64 1 (fst r2) (Ex (AInc (Ex (AVar false f) []) p) []) x3 <> Some (w, z)).
  { intros w z E. rewrite ev_atom_expr, ev_inc in E. apply deep_some, ebind_some in E as (v0 & x4 & E & E').
    rewrite ev_atom_expr in E. change (ev_name (fst r2) false f x3 = Some (v0, x4)) in E.
    rewrite (name_field _ _ (legal_not_builtin f Hf)), V in E. inversion E; subst.
    destruct (keyword_plain q [IObj; IStr; IArr; ITup] x4 W3 P3) as (y' & Ky). unfold ebind in E'. rewrite Ky in E'. discriminate. }
  rewrite ev_items_cons in E5. destruct (kind_of_item h).
  - apply ebind_some in E5 as (g' & y1 & E2' & E3'). inversion E2'; subst. destruct (assoc h (fst y1)); [discriminate|].
    apply ebind_some in E3' as (w & z & E3' & _). eapply N; eauto.
  - destruct (snd r2); [discriminate|]. apply ebind_some in E5 as (w & z & E3' & _). eapply N; eauto.
  - destruct (mem_str h _); [discriminate|]. apply ebind_some in E5 as (w & z & E3' & _). eapply N; eauto.
  - discriminate.
Qed.
(** [g_ok] holds in every process: initially, after creating an instance, after every load. *)
Theorem C37_process_ok fs g : g_ok g -> g_ok (bump g) /\
  (forall text, g_ok (sh_g (snd (parse_obj_str fs g text)))) /\
  (forall path, from_file fs g path <> None -> g_ok (sh_g (snd (parse_obj_file fs g path)))).
Proof.
  intros G. split; [apply ok_bump; auto|]. split.
  - intros text. pose proof (load_str_spec fs g_ok ok_bump ok_sent False g text G) as S.
    destruct (parse_obj_str fs g text) as [[] sh]; try contradiction.
    + apply S.
    + destruct S as [_ (_ & _ & _ & _ & S)]. exact S.
  - intros path Np. unfold from_file in Np. destruct (fs_entry fs path) as [[i e]|] eqn:E.
    + pose proof (load_file_spec fs g_ok ok_bump ok_sent True g path i e G E (fun _ => I)) as S.
      destruct (parse_obj_file fs g path) as [[] sh]; try contradiction; try congruence.
      * destruct S as [_ [C S]]. apply S.
      * destruct S as [_ (_ & _ & _ & _ & S)]. exact S.
    + unfold parse_obj_file, open_file. rewrite E. exact G.
Qed.

(** ** C27: writing *)
Theorem C27_written_in_order o text : write_to_string o = Some text ->
  exists head lines, text = head ++ concat lines /\ (obj_parent o = None -> head = []) /\
    Forall2 (fun p line => exists t, format_value true INDENT_STEP (snd p) = Some t /\
                                     line = fst p ++ lit ": " ++ t ++ [c_nl]) (obj_pairs o) lines.
Proof.
  destruct o as [i ps par]. unfold write_to_string. cbn [format_obj obj_pairs obj_parent].
  assert (B : forall ps body, concat_opt (fun p : pair_t => match p with (field, v) =>
      opt_bind (format_value true (0 + INDENT_STEP) v) (fun f => Some (indent 0 ++ field ++ lit ": " ++ f ++ [c_nl])) end) ps = Some body ->
    exists lines, body = concat lines /\ Forall2 (fun p line => exists t, format_value true INDENT_STEP (snd p) = Some t /\
                                     line = fst p ++ lit ": " ++ t ++ [c_nl]) ps lines).
  { clear. induction ps as [|[f v] ps IH]; cbn [concat_opt]; intros body E.
    - inversion E. exists []. split; auto.
    - destruct (format_value true (0 + INDENT_STEP) v) as [t|] eqn:F; cbn [opt_bind] in E; [|discriminate].
      match type of E with match ?x with _ => _ end = _ => destruct x as [b|] eqn:C; [|discriminate] end.
      destruct (IH b eq_refl) as (lines & -> & L). inversion E; subst.
      exists ((f ++ lit ": " ++ t ++ [c_nl]) :: lines). split; [reflexivity|]. constructor; eauto. }
  assert (C : match (match par with
                    | Some p => opt_bind (format_obj true (0 + INDENT_STEP) p) (fun f => Some (indent 0 ++ lit "^: " ++ f ++ [c_nl]))
                    | None => Some [] end) with
     | Some h => par = None -> h = [] | None => True end).
  { destruct par as [p|]; [|auto]. destruct (format_obj true _ p); cbn [opt_bind]; auto. discriminate. }
  revert C. generalize (match par with
                    | Some p => opt_bind (format_obj true (0 + INDENT_STEP) p) (fun f => Some (indent 0 ++ lit "^: " ++ f ++ [c_nl]))
                    | None => Some [] end).
  intros o C E. destruct ps as [|p0 ps].
  - destruct par as [q|].
    + destruct o as [h|]; cbn [opt_bind concat_opt] in E; [|discriminate]. inversion E; subst.
      exists h, []. cbn. rewrite app_nil_r. split; auto.
    + inversion E; subst. exists [], []. split; auto.
  - destruct o as [h|]; cbn [opt_bind] in E; [|discriminate].
    match type of E with opt_bind ?x _ = _ => destruct x as [b|] eqn:D; [|discriminate] end.
    cbn [opt_bind app] in E. apply B in D as (lines & -> & L). inversion E; subst. exists h, lines. auto.
Qed.
End P.

(** ** Concrete cases *)
Section Ex.
#[local] Instance ascii_only : Unicode := {| u_alpha := fun _ => false; u_debug := fun c => [c] |}.
Notation var n := (Ex (AVar false (lit n)) []).
Notation one := (Ex (ANum (lit "1")) []).

(** The hole in the check for a second definition: [@a: {@a: 1} b: @a] loads, the inner definition is
    lost. *)
Theorem C21_definition_inside_itself_is_lost : exists fs g o p,
  from_str fs g (lit "@a: {@a: 1} b: @a") = Some (OOk o) /\ obj_pairs o = [(lit "b", VObj p)] /\ obj_pairs p = [].
Proof. exists ex_fs, g0. eexists _, _. split; [vm_compute; reflexivity|]. split; reflexivity. Qed.

Example C20_ex_ok : let its := [(lit "a", one); (lit "b", Ex (AObj [(lit "c", one); (lit "d", var "c")]) []); (lit "e", var "a")] in
  r_doc its (lit "a: 1 b: {c: 1 d: c } e: a ") /\ (exists o, from_str ex_fs g0 (lit "a: 1 b: {c: 1 d: c } e: a ") = Some (OOk o)).
Proof. split; [apply show_doc; reflexivity|]. eexists. vm_compute. reflexivity. Qed.
(** the enclosing field [a] is not visible in the inner literal *)
Example C20_ex_bad : let its := [(lit "a", one); (lit "b", Ex (AObj [(lit "c", var "a")]) [])] in
  r_doc its (lit "a: 1 b: {c: a } ") /\ ~ scoped_items [] its.
Proof.
  split; [apply show_doc; reflexivity|]. intros H. inversion H as [|? ? ? ? _ H1]; subst.
  inversion H1 as [|? ? ? ? H2 _]; subst. inversion H2 as [? ? ? H3 _]; subst. inversion H3; subst.
  match goal with H : scoped_items [] _ |- _ => inversion H as [|? ? ? ? K5 _]; subst end.
  inversion K5 as [? ? ? K6 _]; subst. inversion K6 as [| | |? ? [B|B]| | | | | | |]; subst; [|exact B].
  repeat destruct B as [B|B]; try discriminate. exact B.
Qed.
Example C21_ex_redefined : r_doc [(lit "@a", one); (lit "b", one); (lit "@a", one)] (lit "@a: 1 b: 1 @a: 1 ").
Proof. apply show_doc; reflexivity. Qed.
Example C26_ex : let its := [(lit "a", Ex (AArr [one; one]) [])] in
  r_doc its (lit "a: [1 1 ] ") /\ r_doc its (lit "a:[1 #x" ++ nl ++ lit "1]#y").
Proof.
  split; [apply show_doc; reflexivity|]. exists [], (lit "a:[1 #x" ++ nl ++ lit "1]"), (lit "#y").
  split; [reflexivity|]. split; [constructor|]. split.
  2:{ right. exists (lit "y"). split; [reflexivity|]. repeat constructor; discriminate. }
  change (lit "a:[1 #x" ++ nl ++ lit "1]") with (lit "a" ++ c_colon :: [] ++ (lit "[1 #x" ++ nl ++ lit "1]") ++ [] ++ []).
  assert (N1 : num_text (lit "1")) by (apply num_textb_ok; reflexivity).
  apply r_icons; [apply item_nameb_ok; reflexivity| constructor | |constructor|auto|constructor].
  apply atom_expr. change (lit "[1 #x" ++ nl ++ lit "1]") with (c_lbrack :: [] ++ (lit "1" ++ (lit " #x" ++ nl) ++ lit "1" ++ [] ++ []) ++ [c_rbrack]).
  apply r_arr; [constructor|]. apply r_econs; [apply atom_expr; constructor; auto| |right; discriminate|].
  - constructor; [reflexivity|]. apply (ws_comment (lit "x") []); [repeat constructor; discriminate|constructor].
  - apply r_econs; [apply atom_expr; constructor; auto|constructor|auto|constructor].
Qed.
(** an inherited field: found by Obj::get, not by the dot *)
Theorem C30_inherited_field_not_found : exists fs g o p v,
  from_str fs g (lit "@a: {x: 1 } b: {^: @a } ") = Some (OOk o) /\
  assoc (lit "b") (obj_pairs o) = Some (VObj p) /\ obj_get p (lit "x") = Some v /\
  exists e, from_str fs g (lit "@a: {x: 1 } b: {^: @a } c: b.x ") = Some (OErr e).
Proof.
  exists ex_fs, g0. eexists _, _, _. split; [vm_compute; reflexivity|]. split; [reflexivity|]. split; [reflexivity|].
  eexists. vm_compute. reflexivity.
Qed.
Example C30_ex : r_doc [(lit "a", Ex (AObj [(lit "x", one)]) []); (lit "c", Ex (ADot false (lit "a") (AVar false (lit "x"))) [])]
  (lit "a: {x: 1 } c: a.x ").
Proof. apply show_doc. reflexivity. Qed.
Example C37_ex : r_doc [(lit "k", var "Str"); (lit "x", Ex (AInc (var "k") (Some (Ex (AStr [SPlain 98]) []))) [])]
  (lit "k: Str x: <k " ++ q (lit "b") ++ lit "> ") /\
  (exists o, from_str ex_fs g0 (lit "k: Str x: <k " ++ q (lit "b") ++ lit "> ") = Some (OOk o)) /\ g_ok g0.
Proof.
  split; [apply show_doc; reflexivity|]. split; [eexists; vm_compute; reflexivity|].
  split; [intros k; destruct k; discriminate|]. split; [intros k; destruct k; discriminate|]. intros i [].
Qed.
Example C37_ex_ordinary : r_doc [(lit "k", Ex (AObj []) []); (lit "x", Ex (AInc (var "k") (Some (Ex (AStr [SPlain 98]) []))) [])]
  (lit "k: {} x: <k " ++ q (lit "b") ++ lit "> ").
Proof. apply show_doc; reflexivity. Qed.
End Ex.
