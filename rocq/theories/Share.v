(** * Share: which instances an evaluation creates and shares.

    [H i] is the container with id [i] (a keyword Obj, if no Arr, Tup or Obj of this load has it). *)
From Verif Require Export IncSemProofs.
From Coq Require String.
Import String.StringSyntax.
Open Scope N_scope.

(** The id of a container. *)
Definition id_of (v : value) : option N :=
  match v with
  | VArr a => Some (arr_id a)
  | VTup t => Some (tup_id t)
  | VObj o => Some (obj_id o)
  | _ => None
  end.
Definition kw (i : N) : value := VObj (obj_empty i).
Definition heap := N -> value.
Definition put (H : heap) (i : N) (v : value) : heap := fun j => if j =? i then v else H j.
(** every container in [v] is the one with its id, and the id was drawn before [n] *)
Definition kept (H : heap) (n : N) (v : value) : Prop := forall p i, part p v -> id_of p = Some i -> i < n /\ H i = p.
Definition kepts (H : heap) (n : N) (vs : list value) : Prop := Forall (kept H n) vs.
Definition keptp (H : heap) (n : N) (ps : list (str * value)) : Prop := Forall (fun p => kept H n (snd p)) ps.
Definition kepto (H : heap) (n : N) (o : option obj) : Prop := forall p, o = Some p -> kept H n (VObj p).

Lemma kept_scalar H n v : id_of v = None -> kept H n v.
Proof. intros E p i P. destruct v; try discriminate; inversion P; subst; discriminate. Qed.
Lemma kept_part H n v p : kept H n v -> part p v -> kept H n p.
Proof. intros K P q i Q. apply K. eapply part_trans; eauto. Qed.
Lemma kept_arr_values H n a : kept H n (VArr a) -> kepts H n (arr_values a).
Proof. intros K. destruct a as [id t vs]. apply Forall_forall. intros v I. eapply kept_part; [exact K|]. eapply part_arr; eauto. constructor. Qed.
Lemma kept_tup_values H n a : kept H n (VTup a) -> kepts H n (tup_values a).
Proof. intros K. destruct a as [id t vs]. apply Forall_forall. intros v I. eapply kept_part; [exact K|]. eapply part_tup; eauto. constructor. Qed.
Lemma kept_fields H n o : kept H n (VObj o) -> keptp H n (obj_pairs o).
Proof. intros K. destruct o as [id ps par]. apply Forall_forall. intros [f v] I. eapply kept_part; [exact K|]. eapply part_field; eauto. constructor. Qed.
Lemma keptp_assoc H n ps f v : keptp H n ps -> assoc f ps = Some v -> kept H n v.
Proof. intros K A. apply assoc_some in A as (l & r & -> & _). apply Forall_app in K as [_ K]. inversion K; subst. auto. Qed.

(** new containers *)
Lemma kept_put H n i v p : kept H n v -> n <= i -> kept (put H i p) n v.
Proof. intros K L q j P E. destruct (K q j P E) as [A B]. split; auto. unfold put. destruct (N.eqb_spec j i); [lia|auto]. Qed.
Lemma kept_grow H H' n n' v : kept H n v -> n <= n' -> (forall i, i < n -> H' i = H i) -> kept H' n' v.
Proof. intros K L E q j P I. destruct (K q j P I) as [A B]. split; [lia|]. rewrite E; auto. Qed.
Lemma kept_new_arr H n n' t vs : kepts H n vs -> n < n' -> kept (put H n (VArr (MkArr n t vs))) n' (VArr (MkArr n t vs)).
Proof.
  intros K L p i P E. inversion P; subst.
  - cbn in E. injection E as <-. split; auto. unfold put. rewrite N.eqb_refl. reflexivity.
  - unfold kepts in K. rewrite Forall_forall in K. destruct (K _ ltac:(eassumption) p i ltac:(assumption) E) as [A B].
    split; [lia|]. unfold put. destruct (N.eqb_spec i n); [lia|auto].
Qed.
Lemma kept_new_tup H n n' t vs : kepts H n vs -> n < n' -> kept (put H n (VTup (MkTup n t vs))) n' (VTup (MkTup n t vs)).
Proof.
  intros K L p i P E. inversion P; subst.
  - cbn in E. injection E as <-. split; auto. unfold put. rewrite N.eqb_refl. reflexivity.
  - unfold kepts in K. rewrite Forall_forall in K. destruct (K _ ltac:(eassumption) p i ltac:(assumption) E) as [A B].
    split; [lia|]. unfold put. destruct (N.eqb_spec i n); [lia|auto].
Qed.
Lemma kept_new_obj H n n' ps par : keptp H n ps -> kepto H n par -> n < n' -> kept (put H n (VObj (MkObj n ps par))) n' (VObj (MkObj n ps par)).
Proof.
  intros K Kp L p i P E. inversion P; subst.
  - cbn in E. injection E as <-. split; auto. unfold put. rewrite N.eqb_refl. reflexivity.
  - unfold keptp in K. rewrite Forall_forall in K. destruct (K _ ltac:(eassumption) p i ltac:(assumption) E) as [A B].
    split; [lia|]. unfold put. destruct (N.eqb_spec i n); [lia|auto].
  - destruct (Kp _ eq_refl p i ltac:(assumption) E) as [A B].
    split; [lia|]. unfold put. destruct (N.eqb_spec i n); [lia|auto].
Qed.

Section S.
Context `{U : Unicode}.
Definition nxt (x : est) : N := g_next (sh_g (snd x)).
Definition inv (H : heap) (x : est) : Prop :=
  (forall i, nxt x <= i -> H i = kw i) /\
  (forall k i, g_sent (sh_g (snd x)) k = Some i -> i < nxt x /\ H i = kw i) /\
  keptp H (nxt x) (fst x) /\ keptp H (nxt x) (sh_vals (snd x)) /\ wfvals (snd x).
Definition ext (H : heap) (x : est) (H' : heap) (y : est) : Prop := nxt x <= nxt y /\ forall i, i < nxt x -> H' i = H i.
Lemma ext_refl H x : ext H x H x. Proof. split; [lia|auto]. Qed.
Lemma ext_trans H x H1 y H2 z : ext H x H1 y -> ext H1 y H2 z -> ext H x H2 z.
Proof. intros [A B] [C D]. split; [lia|]. intros i L. rewrite D by lia. auto. Qed.
Lemma kept_ext H x H' y v : ext H x H' y -> kept H (nxt x) v -> kept H' (nxt y) v.
Proof. intros [A B] K. eapply kept_grow; eauto. Qed.
Lemma kepts_ext H x H' y v : ext H x H' y -> kepts H (nxt x) v -> kepts H' (nxt y) v.
Proof. intros E. apply Forall_impl. intros a. eapply kept_ext; eauto. Qed.
Lemma keptp_ext H x H' y v : ext H x H' y -> keptp H (nxt x) v -> keptp H' (nxt y) v.
Proof. intros E. apply Forall_impl. intros a. eapply kept_ext; eauto. Qed.
Lemma kepto_ext H x H' y v : ext H x H' y -> kepto H (nxt x) v -> kepto H' (nxt y) v.
Proof. intros E K p Q. eapply kept_ext; eauto. Qed.

(** [m], started in [x], gives only values that satisfy [P] *)
Definition gv {A} (H : heap) (x : est) (m : ES A) (P : heap -> N -> A -> Prop) : Prop :=
  inv H x -> forall a y, m x = Some (a, y) -> exists H', inv H' y /\ ext H x H' y /\ P H' (nxt y) a.
Lemma gv_ret {A} H x (a : A) (P : heap -> N -> A -> Prop) : P H (nxt x) a -> gv H x (eret a) P.
Proof. intros K I b y E. inversion E; subst. exists H. auto using ext_refl. Qed.
Lemma gv_fail {A} H x (P : heap -> N -> A -> Prop) : gv H x efail P.
Proof. intros I b y E. discriminate. Qed.
Lemma gv_lift {A} H x (o : option A) (P : heap -> N -> A -> Prop) : (forall a, o = Some a -> P H (nxt x) a) -> gv H x (elift o) P.
Proof. destruct o; intros K; [apply gv_ret; auto|apply gv_fail]. Qed.
Lemma gv_bind {A B} H x (m : ES A) (f : A -> ES B) P Q : gv H x m P ->
  (forall a y H', ext H x H' y -> inv H' y -> P H' (nxt y) a -> gv H' y (f a) Q) -> gv H x (ebind m f) Q.
Proof.
  intros Hm Hf I b z E. apply ebind_some in E as (a & y & E1 & E2). destruct (Hm I a y E1) as (H1 & I1 & X1 & P1).
  destruct (Hf a y H1 X1 I1 P1 I1 b z E2) as (H2 & I2 & X2 & P2). exists H2. split; auto. split; auto. eapply ext_trans; eauto.
Qed.
Lemma gv_mono {A} H x (m : ES A) (P Q : heap -> N -> A -> Prop) : (forall H n a, P H n a -> Q H n a) -> gv H x m P -> gv H x m Q.
Proof. intros PQ K I a y E. destruct (K I a y E) as (H' & ? & ? & ?). eauto. Qed.

(** the state after a draw *)
Lemma draw_ext H x (v : value) g' : g_later (g_draw (sh_g (snd x))) g' -> inv H x -> id_of v = Some (nxt x) ->
  let y := (fst x, set_g (snd x) g') in nxt x < nxt y /\ ext H x (put H (nxt x) v) y /\ inv (put H (nxt x) v) y.
Proof.
  intros [L1 L2] (I1 & I2 & I3 & I4 & I5) E. cbv zeta. set (y := (fst x, set_g (snd x) g')).
  assert (N1 : nxt x < nxt y) by (unfold nxt, y in *; cbn [snd sh_g set_g g_draw g_next] in *; lia).
  assert (X : ext H x (put H (nxt x) v) y).
  { split; [lia|]. intros i L. unfold put. destruct (N.eqb_spec i (nxt x)); [lia|reflexivity]. }
  split; [exact N1|]. split; [exact X|]. split; [|split; [|split; [|split]]].
  - intros i L. unfold put. destruct (N.eqb_spec i (nxt x)); [lia|]. apply I1. lia.
  - intros k i S. cbn [y snd sh_g set_g] in S. specialize (L2 k). cbn [g_draw g_next] in L2.
    assert (SD : g_sent (g_draw (sh_g (snd x))) k = g_sent (sh_g (snd x)) k) by (destruct k; reflexivity). rewrite SD in L2.
    destruct (g_sent (sh_g (snd x)) k) as [j|] eqn:Sk.
    + rewrite L2 in S. injection S as <-. destruct (I2 _ _ Sk) as [A B]. split; [lia|]. unfold put. destruct (N.eqb_spec j (nxt x)); [lia|auto].
    + rewrite S in L2. unfold nxt, y in *. cbn [snd sh_g set_g] in *. split; [lia|]. unfold put. destruct (N.eqb_spec i (g_next (sh_g (snd x)))); [lia|]. apply I1. lia.
  - eapply keptp_ext; eauto.
  - eapply keptp_ext; eauto.
  - exact I5.
Qed.
Lemma gv_new H x (f : N -> value) (P : heap -> N -> value -> Prop) : (forall i, id_of (f i) = Some i) ->
  (forall n', nxt x < n' -> P (put H (nxt x) (f (nxt x))) n' (f (nxt x))) -> gv H x (do i <- fresh;; eret (f i)) P.
Proof.
  intros F K I a y E. destruct x as [gl sh]. unfold ebind, fresh, eret in E. injection E as <- <-.
  pose proof (draw_ext H (gl, sh) (f (nxt (gl, sh))) (bump (sh_g sh))) as D. cbn [fst snd] in D.
  destruct D as (D1 & D2 & D3); auto.
  { unfold bump. cbn [snd]. apply later_interfere, g_later_refl. }
  exists (put H (nxt (gl, sh)) (f (nxt (gl, sh)))). split; [exact D3|]. split; [exact D2|]. apply K. exact D1.
Qed.
Lemma gv_sent H x k : gv H x (esentinel k) (fun H n o => kept H n (VObj o)).
Proof.
  assert (Z : forall H n i, i < n -> H i = kw i -> kept H n (VObj (obj_empty i))).
  { intros H0 n i L E p j P J. inversion P; subst; try contradiction. cbn in J. injection J as <-. auto. }
  intros I o y E. unfold esentinel in E. destruct (g_sent (sh_g (snd x)) k) as [i|] eqn:S.
  - injection E as <- <-. exists H. split; [exact I|]. split; [apply ext_refl|]. destruct I as (_ & I2 & _). apply Z; apply (I2 _ _ S).
  - destruct x as [gl sh]. injection E as <- <-. cbn [snd] in *.
    set (y := (gl, set_g sh (g_new_sent (sh_g sh) k))).
    assert (L : g_later (g_set_sent (g_draw (sh_g sh)) k (g_next (sh_g sh))) (g_new_sent (sh_g sh) k)) by (apply later_interfere, g_later_refl).
    destruct I as (I1 & I2 & I3 & I4 & I5). destruct L as [L1 L2]. rewrite next_set, next_draw in L1.
    assert (N1 : nxt (gl, sh) + 1 <= nxt y) by exact L1.
    assert (X : ext H (gl, sh) H y) by (split; [lia|auto]).
    exists H. split; [|split; [exact X|]].
    + split; [|split; [|split; [|split]]]; [| |eapply keptp_ext; eauto|eapply keptp_ext; eauto|exact I5].
      * intros i L. apply I1. lia.
      * intros k' i S'. change (g_sent (sh_g (snd y)) k') with (g_sent (g_new_sent (sh_g sh) k) k') in S'. specialize (L2 k').
        rewrite sent_new in L2. rewrite next_set, next_draw in L2.
        destruct (kind_eqb k k') eqn:Ek.
        -- rewrite L2 in S'. injection S' as <-. split; [unfold nxt in *; cbn [snd] in *; lia|]. apply I1. unfold nxt; cbn [snd]; lia.
        -- destruct (g_sent (sh_g sh) k') as [j|] eqn:Sj.
           ++ rewrite L2 in S'. injection S' as <-. destruct (I2 _ _ Sj) as [A B]. split; [lia|auto].
           ++ rewrite S' in L2. unfold nxt in *. cbn [snd y sh_g set_g] in *. split; [lia|]. apply I1. lia.
    + apply Z; [unfold nxt in *; cbn [snd] in *; lia|]. apply I1. unfold nxt; cbn [snd]; lia.
Qed.

(** ** Names, operators, lists, items *)
Notation keptv := (fun H n v => kept H n v).
Lemma gv_globals H x : gv H x eglobals keptp.
Proof. intros I a y E. inversion E; subst. exists H. split; auto. split; [apply ext_refl|]. apply I. Qed.
Lemma gv_define H x f v : kept H (nxt x) v -> gv H x (edefine f v) (fun _ _ _ => True).
Proof.
  intros K (I1 & I2 & I3 & I4 & I5) a y E. inversion E; subst. exists H. split; [|split; [split; [reflexivity|auto]|auto]].
  split; [exact I1|]. split; [exact I2|]. split; [|split; [exact I4|exact I5]]. constructor; auto.
Qed.
Lemma gv_name H x fields g n : keptp H (nxt x) fields -> gv H x (ev_name fields g n) kept.
Proof.
  intros K. unfold ev_name. destruct g.
  - eapply gv_bind; [apply gv_globals|]. intros a y H' _ _ Ka. apply gv_lift. intros v E. eapply keptp_assoc; eauto.
  - destruct (assoc n constants) as [v|] eqn:C.
    { apply gv_ret, kept_scalar. unfold constants in C. cbn [assoc] in C.
      repeat (destruct (str_eqb _ _); [injection C as <-; reflexivity|]). discriminate. }
    destruct (assoc n keywords).
    + eapply gv_bind; [apply gv_sent|]. intros o y H' _ _ Ko. apply gv_ret. exact Ko.
    + apply gv_lift. intros v E. eapply keptp_assoc; eauto.
Qed.
Lemma op_scalar op v w r : op_value op v w = Some r -> id_of r = None.
Proof.
  intros E. destruct (id_of r) eqn:X; auto. exfalso.
  assert (Z : forall o : option value, o = Some r -> o = None \/ (exists z, o = Some (VInt z)) \/ (exists q, o = Some (VFrac q)) \/ (exists t, o = Some (VStr t)) -> False).
  { intros o -> [Q|[[? Q]|[[? Q]|[? Q]]]]; inversion Q; subst; discriminate. }
  eapply Z; [exact E|]. unfold op_value. destruct v; try (left; reflexivity); destruct w; cbn [as_frac];
    try (left; reflexivity); destruct op; try (left; reflexivity); try (right; left; eauto; fail);
    try (right; right; left; eauto; fail); try (right; right; right; eauto; fail);
    match goal with |- context [if ?c then _ else _] => destruct c end; eauto 6.
Qed.
Lemma un_scalar op v r : un_value op v = Some r -> id_of r = None.
Proof. destruct op, v; cbn; intros E; inversion E; subst; reflexivity. Qed.
Lemma num_scalar w r : num_value w = Some r -> id_of r = None.
Proof.
  unfold num_value. intros E.
  repeat match goal with
  | E : match ?c with _ => _ end = _ |- _ => destruct c; try discriminate
  | E : (if ?c then _ else _) = _ |- _ => destruct c; try discriminate
  end; inversion E; subst; try reflexivity.
Qed.
Lemma gv_op H x op v w : kept H (nxt x) v -> kept H (nxt x) w -> gv H x (ev_op op v w) kept.
Proof.
  intros Kv Kw. unfold ev_op.
  assert (L : gv H x (elift (op_value op v w)) kept) by (apply gv_lift; intros r E; apply kept_scalar; eapply op_scalar; eauto).
  destruct op; try exact L. destruct v; try exact L. destruct w; try exact L.
  destruct (most_specific _ _) as [[t b]|]; [|apply gv_fail].
  apply (gv_new H x (fun i => VArr (MkArr i t (arr_values a ++ arr_values a0)))); [reflexivity|].
  intros n' L'. apply kept_new_arr; auto. apply Forall_app. split; apply kept_arr_values; auto.
Qed.
Definition kacc (H : heap) (n : N) (acc : option (value * binop)) : Prop := match acc with Some (s, _) => kept H n s | None => True end.
Definition kops (H : heap) (n : N) (l : list (binop * value)) : Prop := Forall (fun p => kept H n (snd p)) l.
Lemma gv_add H x acc cur : kacc H (nxt x) acc -> kept H (nxt x) cur -> gv H x (add_up acc cur) kept.
Proof. destruct acc as [[s op]|]; intros; [apply gv_op; auto|apply gv_ret; auto]. Qed.
Lemma kops_ext H x H' y l : ext H x H' y -> kops H (nxt x) l -> kops H' (nxt y) l.
Proof. intros E. apply Forall_impl. intros a. eapply kept_ext; eauto. Qed.
Lemma kacc_ext H x H' y l : ext H x H' y -> kacc H (nxt x) l -> kacc H' (nxt y) l.
Proof. intros E. destruct l as [[s op]|]; auto. eapply kept_ext; eauto. Qed.
Lemma gv_chain l : forall H x acc cur, kacc H (nxt x) acc -> kept H (nxt x) cur -> kops H (nxt x) l -> gv H x (ev_chain acc cur l) kept.
Proof.
  induction l as [|[op w] l IH]; intros H x acc cur Ka Kc Kl; cbn [ev_chain]; [apply gv_add; auto|]. inversion Kl; subst.
  destruct (is_priority op).
  - eapply gv_bind; [apply gv_lift with (P := kept); intros r E; apply kept_scalar; eapply op_scalar; eauto|].
    intros p y H' E I Kp. apply IH; eauto using kacc_ext, kops_ext.
  - eapply gv_bind; [apply gv_add; auto|]. intros s y H' E I Ks. apply IH; eauto using kept_ext, kops_ext.
Qed.
Lemma gv_true {A} H x (m : ES A) P : gv H x m P -> gv H x m (fun _ _ _ => True).
Proof. apply gv_mono. auto. Qed.
Lemma gv_keyword o ks : forall H x, gv H x (ev_keyword o ks) (fun _ _ _ => True).
Proof.
  induction ks as [|k ks IH]; intros H x; cbn [ev_keyword]; [apply gv_ret; auto|].
  eapply gv_bind; [apply gv_sent|]. intros s y H' E I _. destruct (_ =? _); auto. apply gv_ret; auto.
Qed.
Lemma gv_emap {A} (f : A -> ES value) l (ok : heap -> N -> Prop) :
  (forall H x H' y, ext H x H' y -> ok H (nxt x) -> ok H' (nxt y)) ->
  Forall (fun a => forall H x, ok H (nxt x) -> gv H x (f a) kept) l -> forall H x, ok H (nxt x) -> gv H x (emap f l) kepts.
Proof.
  intros Mono. induction 1 as [|a l Ha Hl IH]; intros H x K; cbn [emap]; [apply gv_ret; constructor|].
  eapply gv_bind; [apply Ha; auto|]. intros b y H' E I Kb. eapply gv_bind; [apply IH; eauto|].
  intros bs z H2 E2 I2 Kbs. apply gv_ret. constructor; eauto using kept_ext.
Qed.
Lemma gv_emap_op {A} (f : A -> ES value) (l : list (binop * A)) (ok : heap -> N -> Prop) :
  (forall H x H' y, ext H x H' y -> ok H (nxt x) -> ok H' (nxt y)) ->
  Forall (fun a => forall H x, ok H (nxt x) -> gv H x (f (snd a)) kept) l ->
  forall H x, ok H (nxt x) -> gv H x (emap (fun x => match x with (op, b) => do w <- f b;; eret (op, w) end) l) kops.
Proof.
  intros Mono. induction 1 as [|[op a] l Ha Hl IH]; intros H x K; cbn [emap]; [apply gv_ret; constructor|].
  eapply gv_bind.
  { eapply gv_bind; [apply Ha; auto|]. intros b y H' E I Kb. apply gv_ret with (P := fun H n p => kept H n (snd p)). exact Kb. }
  intros b y H' E I Kb. eapply gv_bind; [apply IH; eauto|].
  intros bs z H2 E2 I2 Kbs. apply gv_ret. constructor; auto. eapply kept_ext; eauto.
Qed.
Lemma gv_deep {A} lim d H x (m : ES A) P : gv H x m P -> gv H x (deep lim d m) P.
Proof. unfold deep. destruct (lim d); auto. intros _. apply gv_fail. Qed.
Lemma gv_items (ev : list pair_t -> expr -> ES value) its :
  Forall (fun p => forall fields H x, keptp H (nxt x) fields -> gv H x (ev fields (snd p)) kept) its ->
  forall fields parent H x, keptp H (nxt x) fields -> kepto H (nxt x) parent ->
  gv H x (ev_items ev its fields parent) (fun H n r => keptp H n (fst r) /\ kepto H n (snd r)).
Proof.
  induction 1 as [|[f e] its He Hits IH]; intros fields parent H x Kf Kp; [apply gv_ret; auto|]. rewrite ev_items_cons. cbn [snd] in He.
  destruct (kind_of_item f).
  - eapply gv_bind; [apply gv_globals|]. intros g y H' E I _. destruct (assoc f g); [apply gv_fail|].
    eapply gv_bind; [apply He; eauto using keptp_ext|]. intros v y2 H2 E2 I2 Kv.
    eapply gv_bind; [apply gv_define; auto|]. intros _ y3 H3 E3 I3 _.
    pose proof (ext_trans _ _ _ _ _ _ E (ext_trans _ _ _ _ _ _ E2 E3)). apply IH; eauto using keptp_ext, kepto_ext.
  - destruct parent; [apply gv_fail|]. eapply gv_bind; [apply He; auto|]. intros v y H' E I Kv. destruct v; try apply gv_fail.
    apply IH; eauto using keptp_ext. intros p Ep. injection Ep as <-. exact Kv.
  - destruct (mem_str _ _); [apply gv_fail|]. eapply gv_bind; [apply He; auto|]. intros v y H' E I Kv.
    apply IH; eauto using kepto_ext. apply Forall_app. split; [eapply keptp_ext; eauto|]. constructor; auto.
  - apply gv_fail.
Qed.
Lemma kept_index H n vs i v : kepts H n vs -> ev_index vs i = Some v -> kept H n v.
Proof.
  unfold ev_index. intros K. destruct i; try discriminate. destruct (_ && _); [|discriminate]. intros E.
  apply nth_error_In in E. eapply Forall_forall in K; eauto.
Qed.

(** ** All of an evaluation *)
Section Ev.
Variable inc : inc_ty -> str -> ES value.
Variable lim : N -> bool.
Hypothesis Hinc : forall k p H x, gv H x (inc k p) kept.
Lemma gv_ev : (forall a d fields H x, keptp H (nxt x) fields -> gv H x (ev_atom inc lim d fields a) kept) /\
              (forall e d fields H x, keptp H (nxt x) fields -> gv H x (ev_expr inc lim d fields e) kept).
Proof.
  apply ast_ind.
  - intros w d fields H x K. apply gv_lift. intros v E. apply kept_scalar. eapply num_scalar; eauto.
  - intros cs d fields H x K. apply gv_lift. intros v E. apply kept_scalar. destruct (str_value cs); inversion E; subst; reflexivity.
  - intros g n d fields H x K. apply gv_name; auto.
  - intros g n sub IH d fields H x K. rewrite ev_dot. eapply gv_bind; [apply gv_name; auto|].
    intros v y H' E I Kv. destruct v; try apply gv_fail.
    + eapply gv_bind; [apply IH; eauto using keptp_ext|]. intros i z H2 E2 I2 Ki. apply gv_lift. intros w.
      apply kept_index. apply kept_arr_values. eapply kept_ext; eauto.
    + eapply gv_bind; [apply IH; eauto using keptp_ext|]. intros i z H2 E2 I2 Ki. apply gv_lift. intros w.
      apply kept_index. apply kept_tup_values. eapply kept_ext; eauto.
    + destruct sub; try apply gv_fail; destruct glob; try apply gv_fail; apply IH; apply kept_fields; auto.
  - intros op a IH d fields H x K. rewrite ev_un. eapply gv_bind; [apply IH; auto|]. intros v y H' E I Kv. apply gv_lift.
    intros r R. apply kept_scalar. eapply un_scalar; eauto.
  - intros es IH d fields H x K. rewrite ev_arr. apply gv_deep. eapply gv_bind.
    { apply gv_emap with (ok := fun H n => keptp H n fields); eauto using keptp_ext.
      eapply Forall_impl; [|exact IH]. cbn. intros; auto. }
    intros vs y H' E I Kvs. destruct (lub _) as [t|]; [|apply gv_fail].
    apply (gv_new H' y (fun i => VArr (MkArr i t vs))); [reflexivity|]. intros. apply kept_new_arr; auto.
  - intros es IH d fields H x K. rewrite ev_tup. apply gv_deep. eapply gv_bind.
    { apply gv_emap with (ok := fun H n => keptp H n fields); eauto using keptp_ext.
      eapply Forall_impl; [|exact IH]. cbn. intros; auto. }
    intros vs y H' E I Kvs.
    apply (gv_new H' y (fun i => VTup (MkTup i (map get_type vs) vs))); [reflexivity|]. intros. apply kept_new_tup; auto.
  - intros its IH d fields H x K. rewrite ev_obj. apply gv_deep. eapply gv_bind.
    { apply gv_items; [eapply Forall_impl; [|exact IH]; cbn; intros; auto|constructor|discriminate]. }
    intros [ps par] y H' E I [Kps Kpar].
    apply (gv_new H' y (fun i => VObj (MkObj i ps par))); [reflexivity|]. intros. apply kept_new_obj; auto.
  - intros e p IH IH2 d fields H x K. rewrite ev_inc. apply gv_deep. eapply gv_bind; [apply IH; auto|].
    intros v y H' E I Kv. destruct v; try apply gv_fail.
    + destruct p; [apply gv_fail|apply Hinc].
    + eapply gv_bind; [apply gv_keyword|]. intros [k|] y2 H2 E2 I2 _; [|apply gv_fail].
      destruct p as [e2|]; [|apply gv_fail]. eapply gv_bind; [apply IH2; eauto using keptp_ext, ext_trans|].
      intros v2 y3 H3 E3 I3 K3. destruct v2; try apply gv_fail. apply Hinc.
  - intros a l IHa IHl d fields H x K. rewrite ev_expr_Ex. eapply gv_bind; [apply IHa; auto|]. intros v y H' E I Kv.
    eapply gv_bind.
    { apply gv_emap_op with (f := ev_atom inc lim d fields) (ok := fun H n => keptp H n fields); eauto using keptp_ext.
      eapply Forall_impl; [|exact IHl]. intros [op b] Hb. cbn [snd] in *. auto. }
    intros vs z H2 E2 I2 Kvs. apply gv_chain; [exact Logic.I|eauto using kept_ext|exact Kvs].
Qed.
Lemma gv_all_emap es d fields H x : keptp H (nxt x) fields -> gv H x (emap (ev_expr inc lim d fields) es) kepts.
Proof.
  apply gv_emap with (ok := fun H n => keptp H n fields); eauto using keptp_ext.
  apply Forall_forall. intros e _ H0 x0 K0. apply gv_ev. exact K0.
Qed.
Lemma gv_all_items its d fields parent H x : keptp H (nxt x) fields -> kepto H (nxt x) parent ->
  gv H x (ev_items (ev_expr inc lim d) its fields parent) (fun H n r => keptp H n (fst r) /\ kepto H n (snd r)).
Proof. apply gv_items. apply Forall_forall. intros p _ fl H0 x0. apply gv_ev. Qed.
Lemma gv_doc its H x : gv H x (ev_doc inc lim its) (fun H n o => kept H n (VObj o)).
Proof.
  unfold ev_doc. eapply gv_bind; [apply gv_all_items; [constructor|discriminate]|].
  intros [ps par] y H' E I [Kps Kpar] I' o z E2.
  destruct (gv_new H' y (fun i => VObj (MkObj i ps par)) kept (fun i => eq_refl) (fun n' L => kept_new_obj _ _ n' _ _ Kps Kpar L) I' (VObj o) z) as (H2 & R).
  - revert E2. unfold ebind, eret. destruct (fresh y) as [[i w]|]; [|discriminate]. cbn [fst snd]. intros E2. inversion E2; subst. reflexivity.
  - exists H2. exact R.
Qed.
Lemma gv_arr_doc es H x : gv H x (ev_arr_doc inc lim es) (fun H n o => kept H n (VArr o)).
Proof.
  unfold ev_arr_doc. eapply gv_bind.
  { apply gv_emap with (ok := fun H n => True); auto. apply Forall_forall. intros p _ H0 x0 _. apply gv_ev. constructor. }
  intros vs y H' E I Kvs. destruct (lub _) as [t|]; [|apply gv_fail]. intros I' o z E2.
  destruct (gv_new H' y (fun i => VArr (MkArr i t vs)) kept (fun i => eq_refl) (fun n' L => kept_new_arr _ _ n' _ _ Kvs L) I' (VArr o) z) as (H2 & R).
  - revert E2. unfold ebind, eret. destruct (fresh y) as [[i w]|]; [|discriminate]. cbn [fst snd]. intros E2. inversion E2; subst. reflexivity.
  - exists H2. exact R.
Qed.
Lemma gv_tup_doc es H x : gv H x (ev_tup_doc inc lim es) (fun H n o => kept H n (VTup o)).
Proof.
  unfold ev_tup_doc. eapply gv_bind.
  { apply gv_emap with (ok := fun H n => True); auto. apply Forall_forall. intros p _ H0 x0 _. apply gv_ev. constructor. }
  intros vs y H' E I Kvs I' o z E2.
  destruct (gv_new H' y (fun i => VTup (MkTup i (map get_type vs) vs)) kept (fun i => eq_refl) (fun n' L => kept_new_tup _ _ n' _ _ Kvs L) I' (VTup o) z) as (H2 & R).
  - revert E2. unfold ebind, eret. destruct (fresh y) as [[i w]|]; [|discriminate]. cbn [fst snd]. intros E2. inversion E2; subst. reflexivity.
  - exists H2. exact R.
Qed.
End Ev.

(** ** Includes *)
Section Inc.
Variable fs : fsys.
Notation objA k path n its text sh := (@obj_stream_agr U (fun _ => False) fs (load_file fs k) (Some path) limit64
    (fun d E => E) (fun d E => or_introl E) (load_wf fs k) n its text (mkst (Some path) text 1 1 [] sh)).
Notation arrA k path n its text sh := (@arr_stream_agr U (fun _ => False) fs (load_file fs k) (Some path) limit64
    (fun d E => E) (fun d E => or_introl E) (load_wf fs k) n its text (mkst (Some path) text 1 1 [] sh)).
Notation tupA k path n its text sh := (@tup_stream_agr U (fun _ => False) fs (load_file fs k) (Some path) limit64
    (fun d E => E) (fun d E => or_introl E) (load_wf fs k) n its text (mkst (Some path) text 1 1 [] sh)).
Lemma inv_shift H gl sh gl' sh' : inv H (gl, sh) -> sh_g sh' = sh_g sh -> keptp H (nxt (gl, sh)) gl' -> keptp H (nxt (gl, sh)) (sh_vals sh') -> wfvals sh' ->
  inv H (gl', sh').
Proof. unfold inv, nxt. cbn [fst snd]. intros (I1 & I2 & I3 & I4 & I5) E. rewrite E. auto. Qed.
Lemma gv_inc k : forall file ty p H x, gv H x (inc_of fs (load_file fs k) file ty p) kept.
Proof.
  assert (Again : forall file full ty (v : value) gl sh H o, inv H (gl, sh) -> assoc full (sh_vals sh) = Some v ->
    exists H', inv H' (gl, mksh (sh_vals sh) (closed fs file o) (EInc full ty v :: ETry full :: sh_log sh) (sh_g sh)) /\
      ext H (gl, sh) H' (gl, mksh (sh_vals sh) (closed fs file o) (EInc full ty v :: ETry full :: sh_log sh) (sh_g sh)) /\
      kept H' (nxt (gl, mksh (sh_vals sh) (closed fs file o) (EInc full ty v :: ETry full :: sh_log sh) (sh_g sh))) v).
  { intros file full ty v gl sh H o I A. exists H. split; [|split].
    - eapply inv_shift; [exact I|reflexivity|apply I|apply I|apply I].
    - split; [reflexivity|auto].
    - eapply keptp_assoc; [apply I|exact A]. }
  induction k as [|k IH]; intros file ty p H [gl sh] I v y E; rewrite inc_of_eq in E;
    destruct (canon fs (target file p)) as [full|] eqn:Ef; try discriminate;
    destruct (opened fs file (sh_open sh)) as [o|]; try discriminate;
    destruct (mem_str full o); try discriminate;
    destruct (assoc full (sh_vals sh)) as [v0|] eqn:Ea; try discriminate.
  - inversion E; subst. apply Again; auto.
  - inversion E; subst. apply Again; auto.
  - set (path := target file p) in *. set (sh1 := mksh (sh_vals sh) o (ETry full :: sh_log sh) (sh_g sh)) in *.
    destruct (load_file fs (S k) ty path sh1) as [[w|e| |] sh'] eqn:L; try discriminate. inversion E; subst w y. clear E.
    assert (W : wfvals sh1) by apply I.
    assert (Hwf : wf_value good_names v /\ wfvals sh') by (eapply load_wf; [|exact L]; exact W).
    cbn [load_file] in L. unfold open_file in L. destruct (fs_entry fs path) as [[i fe]|] eqn:Ee; [|discriminate].
    destruct (fe_read fe) as [text|] eqn:Er; [|discriminate]. unfold done_file in L.
    set (sh2 := log_ev (EOpen (fe_canon fe)) sh1) in *.
    assert (W2 : wfvals sh2) by exact W.
    assert (I2 : inv H ([], sh2)) by (eapply inv_shift; [exact I|reflexivity|constructor|apply I|exact W2]).
    assert (K : exists glF shF H', sh' = log_ev (EDone (canon fs path)) shF /\ inv H' (glF, shF) /\ ext H ([], sh2) H' (glF, shF) /\ kept H' (nxt (glF, shF)) v).
    { destruct ty.
      - destruct (run_stream _ _ _ _) as [[q|e| |] shF] eqn:Rn; cbn [omap] in L; try discriminate. injection L as <- <-.
        destruct (run_doc fs k _ (Some path) text sh2 q shF W2 Rn) as [d Hd].
        apply (run_ok_agr _ _ _ _ _ _ _ _ (objA k path _ d text sh2 Hd eq_refl eq_refl (okst_init _ _ _ W2))) in Rn as (gl' & Ev & _).
        destruct (gv_doc _ limit64 (IH (Some path)) d H ([], sh2) I2 _ _ Ev) as (H' & R). exists gl', shF, H'. split; [reflexivity|exact R].
      - injection L as <- <-. exists [], sh2, H. split; [reflexivity|]. split; [exact I2|]. split; [apply ext_refl|apply kept_scalar; reflexivity].
      - destruct (run_stream _ _ _ _) as [[q|e| |] shF] eqn:Rn; cbn [omap] in L; try discriminate. injection L as <- <-.
        destruct (run_arr_list fs k _ (Some path) text sh2 q shF W2 Rn) as [d Hd].
        apply (run_ok_agr _ _ _ _ _ _ _ _ (arrA k path _ d text sh2 Hd eq_refl eq_refl (okst_init _ _ _ W2))) in Rn as (gl' & Ev & _).
        destruct (gv_arr_doc _ limit64 (IH (Some path)) d H ([], sh2) I2 _ _ Ev) as (H' & R). exists gl', shF, H'. split; [reflexivity|exact R].
      - destruct (run_stream _ _ _ _) as [[q|e| |] shF] eqn:Rn; cbn [omap] in L; try discriminate. injection L as <- <-.
        destruct (run_tup_list fs k _ (Some path) text sh2 q shF W2 Rn) as [d Hd].
        apply (run_ok_agr _ _ _ _ _ _ _ _ (tupA k path _ d text sh2 Hd eq_refl eq_refl (okst_init _ _ _ W2))) in Rn as (gl' & Ev & _).
        destruct (gv_tup_doc _ limit64 (IH (Some path)) d H ([], sh2) I2 _ _ Ev) as (H' & R). exists gl', shF, H'. split; [reflexivity|exact R]. }
    destruct K as (glF & shF & H' & -> & IF & XF & KF). exists H'. split; [|split; [exact XF|exact KF]].
    eapply inv_shift; [exact IF|reflexivity| |constructor; [exact KF|apply IF]|constructor; apply Hwf].
    eapply keptp_ext; [exact XF|]. apply I.
Qed.
Lemma gv_meaning file d H sh : gv H ([], sh) (ev_doc (include_meaning fs file) limit64 d) (fun H n o => kept H n (VObj o)).
Proof. apply gv_doc. intros. apply gv_inc. Qed.
End Inc.
(** ** The start of a load *)
Lemma inv_start g : g_ok g -> inv kw ([], init_sh g).
Proof.
  intros (A & _). split; [auto|]. split; [|split; [constructor|split; constructor]].
  intros k i E. split; [|reflexivity]. apply (A k i). exact E.
Qed.
End S.
