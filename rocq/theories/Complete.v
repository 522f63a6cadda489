(** * Complete: whatever the parser accepts is a text of the grammar of Syntax.v.

    One induction over the parser, for partial correctness: if a parsing function returns a value then the
    characters it consumed are a text of the corresponding kind. *)
From Verif Require Export AgreeTop.
From Coq Require String.
Import String.StringSyntax.
Open Scope N_scope.

(** [pc m Q s]: if [m] succeeds in state [s], its result satisfies [Q]. *)
Definition pc {A} (m : M A) (Q : A -> pstate -> Prop) (s : pstate) : Prop :=
  match m s with (Ok a, s') => Q a s' | _ => True end.

Lemma pc_mono {A} (m : M A) (Q Q' : A -> pstate -> Prop) s :
  pc m Q s -> (forall a s', Q a s' -> Q' a s') -> pc m Q' s.
Proof. unfold pc. destruct (m s) as [[] ?]; auto. Qed.
Lemma pc_bind {A B} (m : M A) (f : A -> M B) Q s :
  pc m (fun a s' => pc (f a) Q s') s -> pc (bind m f) Q s.
Proof. unfold pc, bind. destruct (m s) as [[] ?]; auto. Qed.
Lemma pc_ret {A} (a : A) (Q : A -> pstate -> Prop) s : Q a s -> pc (ret a) Q s.
Proof. auto. Qed.
Lemma pc_fail {A} k (Q : A -> pstate -> Prop) s : pc (fail k) Q s.
Proof. exact I. Qed.
Lemma pc_raise {A} k (Q : A -> pstate -> Prop) s : pc (raise k) Q s.
Proof. exact I. Qed.
Lemma pc_panic {A} (Q : A -> pstate -> Prop) s : pc panic Q s.
Proof. exact I. Qed.
Lemma pc_nofuel {A} (Q : A -> pstate -> Prop) s : pc nofuel Q s.
Proof. exact I. Qed.
Lemma pc_peek (Q : option char -> pstate -> Prop) s : Q (hd_error (s_rest s)) s -> pc peek Q s.
Proof. unfold pc, peek. destruct (s_rest s); auto. Qed.
Lemma pc_peek_unwrap (Q : char -> pstate -> Prop) s :
  (forall c r, s_rest s = c :: r -> Q c s) -> pc peek_unwrap Q s.
Proof. unfold pc, peek_unwrap, bind, peek. destruct (s_rest s); cbn; eauto. Qed.
Lemma pc_next_unwrap (Q : char -> pstate -> Prop) s :
  (forall c r, s_rest s = c :: r -> Q c (adv1 s c r)) -> pc next_unwrap Q s.
Proof.
  unfold pc, next_unwrap, bind, next, adv1. destruct (s_rest s) as [|c r]; cbn; [exact (fun _ => I)|]. intros H.
  specialize (H c r eq_refl). destruct (adv c (s_line s) (s_col s)). exact H.
Qed.
Lemma pc_next (Q : option char -> pstate -> Prop) s c r :
  s_rest s = c :: r -> Q (Some c) (adv1 s c r) -> pc next Q s.
Proof. unfold pc, next, adv1. intros ->. destruct (adv c (s_line s) (s_col s)); auto. Qed.
Lemma pc_assert b (Q : unit -> pstate -> Prop) s : (b = true -> Q tt s) -> pc (assert_ b) Q s.
Proof. unfold assert_. destruct b; intros H; [apply H; auto|exact I]. Qed.
Lemma pc_getpos (Q : N * N -> pstate -> Prop) s : (forall x, Q x s) -> pc getpos Q s.
Proof. intros H. apply H. Qed.
Lemma pc_getline (Q : N -> pstate -> Prop) s : (forall x, Q x s) -> pc getline Q s.
Proof. intros H. apply H. Qed.
Lemma pc_getfile (Q : option str -> pstate -> Prop) s : (forall x, Q x s) -> pc getfile Q s.
Proof. intros H. apply H. Qed.
Lemma pc_globals (Q : list (str * value) -> pstate -> Prop) s : Q (s_globals s) s -> pc get_globals Q s.
Proof. auto. Qed.
Lemma pc_col {A} (f : N -> M A) Q s : (forall k s', pc (f k) Q s') -> pc (bind col_minus_1 f) Q s.
Proof. intros H. unfold pc, bind, col_minus_1. destruct (s_col s =? 0); [exact I|]. apply H. Qed.
Lemma pc_line {A} (f : N -> M A) Q s : (forall k s', pc (f k) Q s') -> pc (bind getline f) Q s.
Proof. intros H. apply H. Qed.
Lemma pc_pos {A} (f : N * N -> M A) Q s : (forall k s', pc (f k) Q s') -> pc (bind getpos f) Q s.
Proof. intros H. apply H. Qed.

(** Branches that cannot succeed. *)
Ltac dead :=
  cbn [negb]; repeat match goal with
  | |- pc (fail _) _ _ => apply pc_fail
  | |- pc (raise _) _ _ => apply pc_raise
  | |- pc panic _ _ => apply pc_panic
  | |- pc nofuel _ _ => apply pc_nofuel
  | |- pc (bind getline _) _ _ => apply pc_line; intros ? ?
  | |- pc (bind col_minus_1 _) _ _ => apply pc_col; intros ? ?
  | |- pc (bind getpos _) _ _ => apply pc_pos; intros [? ?] ?
  | |- pc (bind getfile _) _ _ => apply pc_bind, pc_getfile; intros ?
  end.

(** ** Objs whose field names are names *)
Section Named.
Context `{U : Unicode}.

Definition nmv (v : value) : Prop :=
  forall o, part (VObj o) v -> Forall (var_name false) (map fst (obj_pairs o)).
Definition nmps (ps : list (str * value)) : Prop := Forall (fun p => nmv (snd p)) ps.
(** fields in scope *)
Definition nmfs (ps : list (str * value)) : Prop := Forall (var_name false) (map fst ps) /\ nmps ps.

Lemma nmv_leaf v : match v with VArr _ | VTup _ | VObj _ => False | _ => True end -> nmv v.
Proof. intros H o P. destruct v; try contradiction; inversion P. Qed.
Lemma nmv_arr i t vs : nmv (VArr (MkArr i t vs)) <-> Forall nmv vs.
Proof.
  split.
  - intros H. apply Forall_forall. intros v Hv o P. apply H. econstructor; eauto.
  - intros H o P. inversion P; subst. rewrite Forall_forall in H. eapply H; eauto.
Qed.
Lemma nmv_tup i t vs : nmv (VTup (MkTup i t vs)) <-> Forall nmv vs.
Proof.
  split.
  - intros H. apply Forall_forall. intros v Hv o P. apply H. econstructor; eauto.
  - intros H o P. inversion P; subst. rewrite Forall_forall in H. eapply H; eauto.
Qed.
Lemma nmv_obj i ps par : nmv (VObj (MkObj i ps par)) <->
  nmfs ps /\ (forall p, par = Some p -> nmv (VObj p)).
Proof.
  split.
  - intros H. split; [split; [exact (H _ (part_self _))|]|].
    + apply Forall_forall. intros [f v] Hv o P. apply H. econstructor; eauto.
    + intros p -> o P. apply H. constructor; auto.
  - intros ((H1 & H2) & H3) o P. inversion P; subst; auto.
    + unfold nmps in H2. rewrite Forall_forall in H2. eapply (H2 (_, _)); eauto.
    + eapply H3; eauto.
Qed.
Lemma nmps_assoc ps f v : nmps ps -> assoc f ps = Some v -> nmv v.
Proof.
  intros H E. apply assoc_some in E as (l & r & -> & _). apply Forall_app in H as [_ H].
  inversion H; auto.
Qed.
Lemma nmfs_assoc ps f v : nmfs ps -> assoc f ps = Some v -> nmv v /\ var_name false f.
Proof.
  intros [H1 H2] E. split; [eapply nmps_assoc; eauto|]. apply assoc_some in E as (l & r & -> & _).
  rewrite map_app in H1. apply Forall_app in H1 as [_ H1]. inversion H1; auto.
Qed.
Lemma nmfs_nil : nmfs [].
Proof. split; constructor. Qed.
Lemma legal_var f : legal_field f -> var_name false f.
Proof.
  intros (c & r & -> & H1 & H2 & _). exists c, r. split; auto. split; [exact H1|].
  eapply Forall_impl; [|exact H2]. intros d [H|[H|H]]; [left; left|right|left; right]; exact H.
Qed.
Lemma wf_nmv v : wf_value good_names v -> nmv v.
Proof.
  intros W o P. pose proof (wf_part _ _ W P) as V. inversion V as [| | | | | | |o' V']; subst.
  inversion V'; subst. cbn [obj_pairs].
  match goal with K : good_names _ |- _ => destruct K as [_ K] end.
  eapply Forall_impl; [|eassumption]. apply legal_var.
Qed.
End Named.

(** ** Loops *)

Lemma find_ws_true : forall r l k b q, find_char_l r l k false = (b, q) ->
  if b then exists w c r', r = w ++ c :: r' /\ ws w /\ fst (fst q) = c :: r' /\ is_whitespace c = false
  else exists w c, r = w ++ c /\ ws w /\ last_comment c /\ fst (fst q) = [].
Proof.
  intros r. remember (length r) as n eqn:L. revert r L.
  induction n as [n IH] using lt_wf_ind. intros r -> l k b q E.
  destruct r as [|c r]; cbn in E.
  - inversion E; subst. exists [], []. repeat split; auto; [constructor|left; auto].
  - destruct (adv c l k) as [l' k'] eqn:A. destruct (N.eqb_spec c 35) as [->|H].
    + (* a comment *)
      assert (G : forall r0 l0 k0, find_char_l r0 l0 k0 true = (b, q) ->
        (exists body r1 l1 k1, r0 = body ++ 10 :: r1 /\ Forall (fun c => c <> 10) body /\
           find_char_l r1 l1 k1 false = (b, q)) \/
        (Forall (fun c => c <> 10) r0 /\ b = false /\ fst (fst q) = [])).
      { clear. induction r0 as [|d r0 IH]; intros l0 k0 E; cbn in E.
        - inversion E; subst. right. auto.
        - destruct (adv d l0 k0) as [l1 k1]. destruct (N.eqb_spec d 10) as [->|N]; cbn in E.
          + left. exists [], r0, l1, k1. auto.
          + apply IH in E as [(body & r1 & l2 & k2 & -> & F & E)|(F & -> & Q)].
            * left. exists (d :: body), r1, l2, k2. auto.
            * right. auto. }
      apply G in E as [(body & r1 & l1 & k1 & -> & F & E)|(F & -> & Q)].
      * apply (IH (length r1)) in E; [|cbn; rewrite app_length; cbn; lia|reflexivity]. destruct b.
        -- destruct E as (w & d & r' & -> & W & Q & N). exists (35 :: body ++ 10 :: w), d, r'.
           repeat split; auto; [cbn; f_equal; rewrite <- app_assoc; reflexivity|apply ws_comment; auto].
        -- destruct E as (w & d & -> & W & Q & N). exists (35 :: body ++ 10 :: w), d.
           repeat split; auto; [cbn; f_equal; rewrite <- app_assoc; reflexivity|apply ws_comment; auto].
      * exists [], (35 :: r). repeat split; auto; [constructor|right; eauto].
    + destruct (ch_is_whitespace c) eqn:W.
      * apply (IH (length r)) in E; [|cbn; lia|reflexivity]. destruct b.
        -- destruct E as (w & d & r' & -> & W' & Q & N). exists (c :: w), d, r'. repeat split; auto. constructor; auto.
        -- destruct E as (w & d & -> & W' & Q & N). exists (c :: w), d. repeat split; auto. constructor; auto.
      * inversion E; subst. exists [], c, r. repeat split; auto; [constructor|].
        unfold is_whitespace. rewrite W. apply N.eqb_neq in H. rewrite H. auto.
Qed.

Lemma pc_find_char (Q : bool -> pstate -> Prop) s :
  (forall s' w c r, s_globals s' = s_globals s -> s_sh s' = s_sh s ->
     s_rest s = w ++ c :: r -> ws w -> s_rest s' = c :: r -> is_whitespace c = false -> Q true s') ->
  (forall s' w c, s_globals s' = s_globals s -> s_sh s' = s_sh s ->
     s_rest s = w ++ c -> ws w -> last_comment c -> s_rest s' = [] -> Q false s') ->
  pc find_char Q s.
Proof.
  intros H1 H2. unfold pc, find_char.
  destruct (find_char_l (s_rest s) (s_line s) (s_col s) false) as [b [[r l] k]] eqn:F.
  apply find_ws_true in F. destruct b.
  - destruct F as (w & c & r' & E & W & E' & N). cbn in E'. eapply H1; eauto.
  - destruct F as (w & c & E & W & E' & N). cbn in N. eapply H2; eauto.
Qed.

Lemma scan_str_text : forall r l k acc esc x q, scan_str r l k acc esc = (SS_ok x, q) ->
  exists cs, Forall schar_ok cs /\
    (if esc then exists e, r = e :: flat_map schar_text cs ++ c_quote :: fst (fst q)
     else r = flat_map schar_text cs ++ c_quote :: fst (fst q)).
Proof.
  induction r as [|c r IH]; intros l k acc esc x q E; cbn in E; [discriminate|].
  destruct (adv c l k) as [l' k']. destruct esc.
  - destruct (get_escape_char c); [|discriminate]. apply IH in E as (cs & F & E). exists cs. split; auto.
    exists c. f_equal. exact E.
  - destruct (N.eqb_spec c 34) as [->|N1].
    { inversion E; subst. exists []. split; [constructor|reflexivity]. }
    destruct (N.eqb_spec c 92) as [->|N2].
    + apply IH in E as (cs & F & e & E). exists (SEsc e :: cs). split; [constructor; auto; exact I|].
      cbn. rewrite E. reflexivity.
    + apply IH in E as (cs & F & E). exists (SPlain c :: cs). split; [constructor; auto; split; auto|].
      cbn. rewrite E. reflexivity.
Qed.

Lemma scan_numeric_text : forall r l k s1 s2 dec under a b d q,
  scan_numeric r l k s1 s2 dec under = (NS_ok a b d, q) ->
  exists w, r = w ++ fst (fst q) /\ Forall (fun c => num_char c = true) w /\
    (forall c r', r = c :: r' -> is_value_end_char c = false -> exists w', w = c :: w') /\ fol (fst (fst q)).
Proof.
  induction r as [|c r IH]; intros l k s1 s2 dec under a b d q E; cbn in E.
  - inversion E; subst. exists []. repeat split; auto; [intros; discriminate|left; auto].
  - destruct (adv c l k) as [l' k']. destruct (is_value_end_char c) eqn:V.
    { inversion E; subst. exists []. repeat split; auto; [intros ? ? X; inversion X; subst; congruence|right; exists c, r; auto]. }
    assert (G : num_char c = true -> (exists t1 t2 d1 u1, scan_numeric r l' k' t1 t2 d1 u1 = (NS_ok a b d, q)) ->
      exists w, c :: r = w ++ fst (fst q) /\ Forall (fun c => num_char c = true) w /\
        (forall c0 r', c :: r = c0 :: r' -> is_value_end_char c0 = false -> exists w', w = c0 :: w') /\ fol (fst (fst q))).
    { intros Hc (t1 & t2 & d1 & u1 & E'). apply IH in E' as (w & -> & F & _ & Fo). exists (c :: w).
      repeat split; auto. intros ? ? X; inversion X; subst. eauto. }
    unfold num_char in G. destruct (is_digit c).
    { apply G; auto. destruct (negb dec); eauto. }
    destruct ((c =? 46) || (c =? 44)) eqn:P.
    { apply G; [cbn; rewrite P; auto|]. destruct (negb dec); [eauto|discriminate]. }
    destruct (c =? 95) eqn:P2; [|discriminate].
    apply G; [rewrite !orb_true_r; auto|]. destruct (negb under); [eauto|discriminate].
Qed.

Section Scans.
Context `{U : Unicode}.

Lemma scan_var_text : forall r l k v x q, scan_var r l k v = (x, q) ->
  match x with
  | VS_end w => exists n, w = v ++ n /\ r = n ++ fst (fst q) /\ Forall letter_or_digit n /\ fol (fst (fst q))
  | VS_dot w => exists n, w = v ++ n /\ r = n ++ c_dot :: fst (fst q) /\ Forall letter_or_digit n
  | VS_bad _ => True
  end.
Proof.
  induction r as [|c r IH]; intros l k v x q E; cbn in E.
  - inversion E; subst. exists []. rewrite app_nil_r. repeat split; auto. left; auto.
  - destruct (adv c l k) as [l' k']. destruct (N.eqb_spec c 46) as [->|N].
    { inversion E; subst. exists []. rewrite app_nil_r. auto. }
    destruct (is_value_end_char c) eqn:Ve.
    { inversion E; subst. exists []. rewrite app_nil_r. repeat split; auto. right; cbn; eauto. }
    destruct (is_valid_field_char c false) eqn:V; [|inversion E; exact I].
    apply field_lod in V. apply IH in E. destruct x; auto.
    + destruct E as (n & -> & E & F & Fo). exists (c :: n). rewrite <- app_assoc. cbn. rewrite <- E. auto.
    + destruct E as (n & -> & E & F). exists (c :: n). rewrite <- app_assoc. cbn. rewrite <- E. auto.
Qed.

(** A field name that was followed by a colon. *)
Lemma scan_field_text r l k f0 f q : scan_field r l k f0 true = (FS_ok f, q) -> fst (fst q) <> [] ->
  exists c w, f = f0 ++ c :: w /\ r = c :: w ++ c_colon :: fst (fst q) /\ (letter c \/ c = c_caret) /\
    Forall letter_or_digit w.
Proof.
  assert (G : forall r l k f0 f q, scan_field r l k f0 false = (FS_ok f, q) -> fst (fst q) <> [] ->
    exists w, f = f0 ++ w /\ r = w ++ c_colon :: fst (fst q) /\ Forall letter_or_digit w).
  { clear. induction r as [|c r IH]; intros l k f0 f q E H; cbn in E.
    - inversion E; subst. contradiction.
    - destruct (adv c l k) as [l' k']. destruct (N.eqb_spec c 58) as [->|N]; cbn in E.
      + inversion E; subst. exists []. rewrite app_nil_r. auto.
      + destruct (is_valid_field_char c false) eqn:V; [|discriminate]. apply field_lod in V.
        apply IH in E as (w & -> & -> & F); auto. exists (c :: w). rewrite <- app_assoc. auto. }
  intros E H. destruct r as [|c r]; cbn in E.
  - inversion E; subst. contradiction.
  - destruct (adv c l k) as [l' k']. rewrite andb_false_r in E.
    destruct (is_valid_field_char c true) eqn:V; [|discriminate].
    apply G in E as (w & -> & -> & F); auto. exists c, w. rewrite <- app_assoc. repeat split; auto.
    apply valid_field_cases in V as [V|[[_ V]|[V|[V _]]]]; [left; left; auto|discriminate|left; right; auto|right; auto].
Qed.
End Scans.

(** ** Leaves *)
Section Main.
Context `{U : Unicode}.
Variable fs : fsys.
Variable load_inc : inc_ty -> str -> shared -> outcome value * shared.
Hypothesis load_ok : forall ty p sh v sh', wfvals sh ->
  load_inc ty p sh = (Ok v, sh') -> wf_value good_names v /\ wfvals sh'.

Definition inv (s : pstate) : Prop := nmps (s_globals s) /\ wfvals (s_sh s).
Lemma inv_adv1 s c r : inv s -> inv (adv1 s c r).
Proof. auto. Qed.
Lemma inv_eq s s' : s_globals s' = s_globals s -> s_sh s' = s_sh s -> inv s -> inv s'.
Proof. unfold inv. intros -> ->. auto. Qed.

(** A value is returned, nothing is consumed. *)
Definition same (s : pstate) (v : value) (s' : pstate) : Prop := inv s' /\ nmv v /\ s_rest s' = s_rest s.

Lemma pc_gen_id (Q : N -> pstate -> Prop) s :
  (forall i s', (inv s -> inv s') -> s_rest s' = s_rest s -> Q i s') -> pc gen_id Q s.
Proof. intros H. unfold pc, gen_id. apply H; auto. Qed.
Lemma pc_sentinel k (Q : obj -> pstate -> Prop) s :
  (forall i s', (inv s -> inv s') -> s_rest s' = s_rest s -> Q (obj_empty i) s') -> pc (sentinel k) Q s.
Proof.
  intros H. unfold pc, sentinel. destruct (g_sent _ _); [apply H; auto|]. cbn. apply H; auto.
Qed.
Lemma nmv_empty i : nmv (VObj (obj_empty i)).
Proof. apply nmv_obj. split; [apply nmfs_nil|]. discriminate. Qed.

Lemma unary_pc v op line col s : inv s -> pc (unary_op_on_value v op line col) (same s) s.
Proof.
  intros I0. unfold pc.
  destruct op, v; cbn [unary_op_on_value get_type unwrap_o get_int get_frac bind ret fail];
    unfold bind, ret, fail; auto; repeat split; try apply I0; apply nmv_leaf; exact I.
Qed.

Ltac pstep := unfold pc, binary_op_on_values;
  cbn [get_type ty_eqb ty_is andb as_frac unwrap_o get_int get_frac get_str unwrap ratio_new];
  unfold bind; cbn [ret fail unwrap_o get_int get_frac get_str unwrap]; unfold ret, fail.
Ltac pleaf := repeat split; try assumption; try (apply nmv_leaf; exact I).
Lemma binary_pc v w op line col s : inv s -> nmv v -> nmv w ->
  pc (binary_op_on_values v w op line col) (same s) s.
Proof.
  intros K V W. pose proof K as [K1 K2].
  destruct v as [|b|z|q|t|a|t|o]; try (destruct op, w; pstep; exact I).
  - destruct w as [|b|z'|q|t|a|t|o]; try (destruct op; pstep; exact I).
    + destruct op; pstep; try solve [pleaf].
      * destruct (Z.eqb_spec z' 0); [exact I|]. rewrite int_div by auto. cbn [unwrap ret]. unfold ret. pleaf.
      * destruct (z' =? 0)%Z; [exact I|]. pleaf.
    + destruct op; pstep; try solve [exact I|pleaf].
      destruct (q_is_zero q); [exact I|]. pleaf.
  - destruct w as [|b|z|q'|t|a|t|o]; try (destruct op; pstep; exact I).
    + destruct op; pstep; try solve [exact I|pleaf].
      match goal with |- context [q_is_zero ?x] => destruct (q_is_zero x) end; [exact I|]. pleaf.
    + destruct op; pstep; try solve [exact I|pleaf]. destruct (q_is_zero q'); [exact I|]. pleaf.
  - destruct w as [|b|z|q|t'|a|t'|o]; destruct op; pstep; try solve [exact I|pleaf].
  - destruct w as [|b|z|q|t|a'|t|o]; destruct op; pstep; try solve [exact I|pleaf].
    cbn [most_specific]. destruct (most_specific (arr_inner_type a) (arr_inner_type a')) as [[t any]|]; [|exact I].
    cbn [get_arr unwrap_o]. unfold ret. cbn. destruct s as [f r l k g [vals op log gs]]. cbn.
    repeat split; try assumption. apply nmv_arr. destruct a, a'. cbn.
    apply nmv_arr in V. apply nmv_arr in W. apply Forall_app; auto.
Qed.

Definition vals_ok (vals : list (value * N * N)) : Prop := Forall (fun x => nmv (val3 x)) vals.
Lemma low_pc ops : forall v vals s, inv s -> nmv v -> vals_ok vals ->
  pc (eval_low_ops v vals ops) (same s) s.
Proof.
  induction ops as [|op ops IH]; intros v vals s K V F.
  - assert (E : eval_low_ops v vals [] = ret v) by (destruct vals; reflexivity).
    rewrite E. apply pc_ret. repeat split; auto; apply K.
  - destruct vals as [|[[w l] c] vals]; cbn [eval_low_ops]; [apply pc_panic|]. inversion F; subst.
    apply pc_bind. eapply pc_mono; [apply binary_pc; auto|]. intros u s' (K' & U' & R').
    eapply pc_mono; [apply IH; auto|]. intros x s'' (? & ? & E). repeat split; auto; try congruence; apply H.
Qed.

Lemma lookup_pc pairs var g line col s : inv s -> nmfs pairs -> (g = true -> exists n, var = c_at :: n) ->
  pc (lookup_variable pairs var g line col) (fun v s' => same s v s' /\
    (g = true -> var <> [c_at]) /\ (g = false -> var_name false var)) s.
Proof.
  intros K F G. unfold lookup_variable.
  assert (X : forall t v s', t = lit "null" \/ t = lit "true" \/ t = lit "false" \/
     t = lit "Obj" \/ t = lit "Str" \/ t = lit "Arr" \/ t = lit "Tup" -> str_eqb var t = true ->
     same s v s' -> same s v s' /\ (g = true -> var <> [c_at]) /\ (g = false -> var_name false var)).
  { intros t v s' Ht E S. apply str_eqb_iff in E. subst var. split; auto. split.
    - intros _ E. rewrite E in Ht. cbn in Ht. intuition discriminate.
    - intros _. assert (A : forall c r, ch_is_alphabetic c = true -> forallb (fun d => ch_is_alphabetic d) r = true -> var_name false (c :: r)).
      { intros c r Hc Hr. exists c, r. split; auto. split; [left; auto|]. apply Forall_forall. intros d Hd.
        rewrite forallb_forall in Hr. left. left. auto. }
      destruct Ht as [->|[->|[->|[->|[->|[->| ->]]]]]]; apply A; reflexivity. }
  assert (L : forall v, match v with VArr _ | VTup _ | VObj _ => False | _ => True end -> same s v s).
  { intros v Hv. repeat split; try apply K. apply nmv_leaf; auto. }
  destruct (str_eqb var (lit "null")) eqn:E1; [apply pc_ret; apply (X (lit "null")); [auto 9|assumption|apply L; exact I]|].
  destruct (str_eqb var (lit "true")) eqn:E2; [apply pc_ret; apply (X (lit "true")); [auto 9|assumption|apply L; exact I]|].
  destruct (str_eqb var (lit "false")) eqn:E3; [apply pc_ret; apply (X (lit "false")); [auto 9|assumption|apply L; exact I]|].
  destruct (str_eqb var (lit "Obj")) eqn:E4.
  { apply pc_bind, pc_sentinel. intros i s' Hi Hr. apply pc_ret. apply (X (lit "Obj")); [auto 9|assumption|]. split; auto. split; [apply nmv_empty|auto]. }
  destruct (str_eqb var (lit "Str")) eqn:E5.
  { apply pc_bind, pc_sentinel. intros i s' Hi Hr. apply pc_ret. apply (X (lit "Str")); [auto 9|assumption|]. split; auto. split; [apply nmv_empty|auto]. }
  destruct (str_eqb var (lit "Arr")) eqn:E6.
  { apply pc_bind, pc_sentinel. intros i s' Hi Hr. apply pc_ret. apply (X (lit "Arr")); [auto 9|assumption|]. split; auto. split; [apply nmv_empty|auto]. }
  destruct (str_eqb var (lit "Tup")) eqn:E7.
  { apply pc_bind, pc_sentinel. intros i s' Hi Hr. apply pc_ret. apply (X (lit "Tup")); [auto 9|assumption|]. split; auto. split; [apply nmv_empty|auto]. }
  clear X. destruct (str_eqb var (lit "@")) eqn:E8; [apply pc_fail|]. apply str_eqb_neq in E8.
  destruct g.
  - apply pc_bind, pc_globals. destruct (assoc var (s_globals s)) as [v|] eqn:A; [|apply pc_fail].
    apply pc_ret. split; [|split; [auto|discriminate]]. repeat split; try apply K. eapply nmps_assoc; eauto. apply K.
  - destruct (assoc var pairs) as [v|] eqn:A; [|apply pc_fail]. apply pc_ret.
    destruct (nmfs_assoc _ _ _ F A). split; [|split; [discriminate|auto]]. repeat split; try apply K; auto.
Qed.

Lemma index_pc get idx line col s : inv s -> (forall i v, get i = OOk v -> nmv v) ->
  pc (index_by get idx line col) (same s) s.
Proof.
  intros K G. unfold index_by. destruct idx; try apply pc_fail. destruct (to_usize z) as [i|]; [|apply pc_fail].
  destruct (get i) eqn:E; dead. apply pc_ret. repeat split; try apply K. eauto.
Qed.
Lemma arr_get_nm a i v : nmv (VArr a) -> arr_get a i = OOk v -> nmv v.
Proof.
  intros H E. pose proof (arr_get_nth a i) as G. destruct a as [id t vs]. apply nmv_arr in H. cbn [arr_values] in G.
  destruct (nth_error vs (N.to_nat i)) eqn:N.
  - rewrite G in E. inversion E; subst. rewrite Forall_forall in H. apply H. eapply nth_error_In; eauto.
  - destruct G as [e G]. congruence.
Qed.
Lemma tup_get_nm a i v : nmv (VTup a) -> tup_get a i = OOk v -> nmv v.
Proof.
  intros H E. pose proof (tup_get_nth a i) as G. destruct a as [id t vs]. apply nmv_tup in H. cbn [tup_values] in G.
  destruct (nth_error vs (N.to_nat i)) eqn:N.
  - rewrite G in E. inversion E; subst. rewrite Forall_forall in H. apply H. eapply nth_error_In; eauto.
  - destruct G as [e G]. congruence.
Qed.

Lemma token_pc v line col s : inv s ->
  pc (include_token v line col) (fun x s' => inv s' /\ s_rest s' = s_rest s) s.
Proof.
  intros K. unfold include_token. destruct v; try apply pc_fail; [apply pc_ret; auto|].
  apply pc_bind, pc_sentinel. intros i1 s1 K1 R1. destruct (obj_ptr_eq _ _); [apply pc_ret; split; auto|].
  apply pc_bind, pc_sentinel. intros i2 s2 K2 R2. destruct (obj_ptr_eq _ _); [apply pc_ret; split; auto; congruence|].
  apply pc_bind, pc_sentinel. intros i3 s3 K3 R3. destruct (obj_ptr_eq _ _); [apply pc_ret; split; auto; congruence|].
  apply pc_bind, pc_sentinel. intros i4 s4 K4 R4. destruct (obj_ptr_eq _ _); [apply pc_ret; split; auto; congruence|].
  apply pc_fail.
Qed.

Lemma finish_pc k p line col s : inv s -> pc (finish_include fs load_inc k p line col) (same s) s.
Proof.
  intros [K1 K2]. unfold pc, finish_include, same, inv.
  destruct s as [f r l c g sh]. cbn [s_file s_globals s_sh] in *.
  unfold bind, getfile, get_sh, put_sh, run_include, fail, panic, ret, log_ev; cbn [s_file s_sh set_sh].
  unfold assert_. destruct (has_parent f); [|exact I]. unfold ret.
  set (path := match f with Some f0 => beside f0 p | None => p end).
  destruct (negb (is_file fs path)); [exact I|].
  destruct (canon fs path) as [full|]; [|exact I].
  destruct f as [f|].
  - destruct (canon fs f) as [ff|]; [|exact I]. cbn [s_sh set_sh log_ev sh_vals sh_open sh_log sh_g].
    destruct (mem_str full _); [exact I|].
    destruct (assoc full (sh_vals sh)) as [v|] eqn:A.
    + cbn. repeat split; auto. apply wf_nmv. eapply wfvals_assoc; eauto.
    + cbn [s_sh set_sh sh_vals sh_open sh_log sh_g].
      match goal with |- context [load_inc k path ?x] => destruct (load_inc k path x) as [[v|e| |] sh'] eqn:L end;
        cbn; auto. apply load_ok in L as [L1 L2]; auto. repeat split; auto; [constructor; auto|apply wf_nmv; auto].
  - cbn [s_sh set_sh log_ev sh_vals sh_open sh_log sh_g].
    destruct (mem_str full _); [exact I|].
    destruct (assoc full (sh_vals sh)) as [v|] eqn:A.
    + cbn. repeat split; auto. apply wf_nmv. eapply wfvals_assoc; eauto.
    + cbn [s_sh set_sh sh_vals sh_open sh_log sh_g].
      match goal with |- context [load_inc k path ?x] => destruct (load_inc k path x) as [[v|e| |] sh'] eqn:L end;
        cbn; auto. apply load_ok in L as [L1 L2]; auto. repeat split; auto; [constructor; auto|apply wf_nmv; auto].
Qed.

Definition quiet (s s' : pstate) : Prop := s_globals s' = s_globals s /\ s_sh s' = s_sh s.
Lemma quiet_inv s s' : quiet s s' -> inv s -> inv s'.
Proof. intros [H1 H2]. apply inv_eq; auto. Qed.

Lemma parse_str_pc s : inv s ->
  pc parse_str (fun v s' => inv s' /\ nmv v /\ exists cs t, r_atom (AStr cs) t /\ s_rest s = t ++ s_rest s') s.
Proof.
  intros K. unfold parse_str. apply pc_bind, pc_next_unwrap. intros c r R.
  apply pc_bind, pc_assert. intros C. apply N.eqb_eq in C. subst c.
  apply pc_bind. unfold pc at 1. rewrite adv1_rest.
  destruct (scan_str r _ _ [] false) as [x [[r' l'] k']] eqn:S. destruct x; dead.
  apply pc_ret. split; [exact K|]. split; [apply nmv_leaf; exact I|].
  apply scan_str_text in S as (cs & F & E). cbn [fst] in E. exists cs, (34 :: flat_map schar_text cs ++ [34]).
  split; [constructor; auto|]. rewrite R, E. cbn. rewrite <- app_assoc. reflexivity.
Qed.

Lemma bigint_pc w (Q : Z -> pstate -> Prop) s : (forall z, Q z s) -> pc (parse_bigint w) Q s.
Proof. intros H. unfold parse_bigint. destruct w; dead. destruct (forallb _ _); dead. apply pc_ret. auto. Qed.

Lemma parse_numeric_pc s c r line col : inv s -> s_rest s = c :: r -> is_numeric_char c = true ->
  pc (parse_numeric line col) (fun v s' => inv s' /\ nmv v /\ exists w, r_atom (ANum w) w /\ s_rest s = w ++ s_rest s' /\ fol (s_rest s')) s.
Proof.
  intros K R C. unfold parse_numeric. apply pc_bind. unfold pc at 1.
  destruct (scan_numeric _ _ _ _ _ _ _) as [x [[r' l'] k']] eqn:S. destruct x as [s1 s2 dec|]; dead.
  apply scan_numeric_text in S as (w & E & F & G & Fo). cbn [fst] in E, Fo.
  destruct (G c r R (numeric_not_end _ C)) as [w' ->]. inversion F; subst.
  assert (A : r_atom (ANum (c :: w')) (c :: w')).
  { constructor. exists c, w'. repeat split; auto. intros ->. discriminate. }
  assert (V : forall v, match v with VArr _ | VTup _ | VObj _ => False | _ => True end ->
    (fun v s' => inv s' /\ nmv v /\ exists w, r_atom (ANum w) w /\ s_rest s = w ++ s_rest s' /\ fol (s_rest s')) v (set_stream s r' l' k')).
  { intros v Hv. split; [exact K|]. split; [apply nmv_leaf; auto|]. exists (c :: w'). auto. }
  destruct dec.
  - destruct s1 as [|d1 s1]; [destruct s2 as [|d2 s2]; [dead|]|]; apply pc_bind.
    + apply pc_ret. apply pc_bind. destruct (trim_end_zeros (d2 :: s2)).
      * apply pc_ret. apply pc_bind. destruct (frac_from_whole_and_dec _ _ _); cbn [unwrap]; dead. apply pc_ret, pc_ret, V; exact I.
      * apply pc_bind. apply bigint_pc. intros z. apply pc_ret. apply pc_bind.
        destruct (frac_from_whole_and_dec _ _ _); cbn [unwrap]; dead. apply pc_ret, pc_ret, V; exact I.
    + apply bigint_pc. intros z0. apply pc_bind. destruct (trim_end_zeros s2).
      * apply pc_ret. apply pc_bind. destruct (frac_from_whole_and_dec _ _ _); cbn [unwrap]; dead. apply pc_ret, pc_ret, V; exact I.
      * apply pc_bind. apply bigint_pc. intros z. apply pc_ret. apply pc_bind.
        destruct (frac_from_whole_and_dec _ _ _); cbn [unwrap]; dead. apply pc_ret, pc_ret, V; exact I.
  - destruct s1; dead. apply pc_bind, bigint_pc. intros z. apply pc_ret, V; exact I.
Qed.

Lemma parse_field_pc s line col : inv s ->
  pc (parse_field line col) (fun x s' => quiet s s' /\
    (s_rest s' <> [] -> item_name (fst x) /\ s_rest s = fst x ++ c_colon :: s_rest s' /\
      (snd x = FRegular -> var_name false (fst x)))) s.
Proof.
  intros K. unfold parse_field. apply pc_bind, pc_peek_unwrap. intros c r R. apply pc_bind.
  destruct (N.eqb_spec c 64) as [->|N].
  - apply pc_bind, pc_next_unwrap. intros c' r0 R'. assert (c' = 64 /\ r0 = r) as [-> ->] by (split; congruence).
    apply pc_ret. apply pc_bind. unfold pc at 1. rewrite adv1_rest.
    destruct (scan_field r _ _ [64] true) as [x [[r' l'] k']] eqn:S. destruct x as [f|]; dead.
    destruct (is_reserved f); dead.
    assert (G : r' <> [] -> item_name f /\ s_rest s = f ++ c_colon :: r').
    { intros H. apply scan_field_text in S as (c1 & w & -> & E & L & F); auto. cbn [fst] in E. split.
      - exists c1, w. auto.
      - rewrite R, E. reflexivity. }
    destruct (str_eqb f (lit "^")).
    { apply pc_ret. split; [split; reflexivity|]. intros H. destruct (G H). repeat split; auto. discriminate. }
    rewrite caret_match. destruct (starts_caret f); dead.
    apply pc_ret. split; [split; reflexivity|]. intros H. destruct (G H). repeat split; auto. discriminate.
  - apply pc_ret. apply pc_bind. unfold pc at 1.
    destruct (scan_field _ _ _ [] true) as [x [[r' l'] k']] eqn:S. destruct x as [f|]; dead.
    destruct (is_reserved f); dead.
    assert (G : r' <> [] -> (item_name f /\ s_rest s = f ++ c_colon :: r') /\ (starts_caret f = false -> var_name false f)).
    { intros H. apply scan_field_text in S as (c1 & w & -> & E & L & F); auto. cbn [fst] in E. split; [split|].
      - exists c1, w. auto.
      - rewrite E. reflexivity.
      - cbn. intros H'. exists c1, w. split; auto. split; auto. destruct L as [L| ->]; [auto|discriminate]. }
    destruct (str_eqb f (lit "^")).
    { apply pc_ret. split; [split; reflexivity|]. intros H. destruct (G H) as [[? ?] _]. repeat split; auto. discriminate. }
    rewrite caret_match. destruct (starts_caret f); dead.
    apply pc_ret. split; [split; reflexivity|]. intros H. destruct (G H) as [[? ?] ?]. repeat split; auto.
Qed.

Lemma check_end_pc brace s : (forall c r, s_rest s = c :: r -> get_op c = None) ->
  pc (check_value_end brace) (fun _ s' => s' = s /\ folb brace (s_rest s)) s.
Proof.
  intros H. unfold check_value_end. apply pc_bind, pc_peek.
  destruct (s_rest s) as [|c r] eqn:R; cbn [hd_error].
  { apply pc_ret. split; auto. left; auto. }
  destruct (is_value_end_char c) eqn:V; dead.
  destruct (is_end_delimiter c) eqn:D; cbn [andb].
  - destruct (opt_char_eqb (Some c) brace) eqn:O; cbn [negb]; dead. apply pc_ret. split; auto.
    right. exists c, r. split; auto. right. split; auto. destruct brace as [b|]; [|discriminate].
    cbn in O. apply N.eqb_eq in O. congruence.
  - apply pc_ret. split; auto. right. exists c, r. split; auto. left.
    unfold is_value_end_char in V. rewrite D, orb_false_r in V. apply orb_true_iff in V as [V|V]; auto.
    specialize (H c r eq_refl). exfalso. unfold is_op in V. unfold get_op in H.
    rewrite !orb_true_iff, !N.eqb_eq in V. intuition (subst c; discriminate).
Qed.

(** ** The induction *)
Definition dot_start (c : char) : Prop :=
  c = c_at \/ is_valid_field_char c true = true \/ is_numeric_char c = true.

(** A value was returned and the text of an atom consumed. *)
Definition atm (s : pstate) (v : value) (s' : pstate) : Prop :=
  inv s' /\ nmv v /\ exists t a, s_rest s = t ++ s_rest s' /\ r_atom a t /\ (fol (s_rest s') \/ closed_atom a = true).

Definition P_value n := forall pairs line col depth brace first s, inv s -> nmfs pairs ->
  pc (parse_value fs load_inc n pairs line col depth brace first)
    (fun v s' => inv s' /\ nmv v /\ exists t, s_rest s = t ++ s_rest s' /\
       if first then (exists e, r_expr e t) /\ folb brace (s_rest s')
       else exists a, r_atom a t /\ (forall c r, s_rest s = c :: r -> dot_start c -> dot_sub a) /\ (fol (s_rest s') \/ closed_atom a = true)) s.
Definition P_ops n := forall pairs depth brace vals ops s, inv s -> nmfs pairs -> vals_ok vals ->
  pc (parse_ops fs load_inc n pairs depth brace vals ops)
    (fun x s' => inv s' /\ vals_ok (fst x) /\ (forall c r, s_rest s' = c :: r -> get_op c = None) /\
       exists l t, r_chain l t /\ s_rest s = t ++ s_rest s') s.
Definition P_unary n := forall pairs depth brace op s, inv s -> nmfs pairs ->
  pc (parse_unary_op fs load_inc n pairs depth brace op) (atm s) s.
Definition P_obj n := forall depth s, inv s -> pc (parse_obj fs load_inc n depth) (atm s) s.
Definition okp (x : list pair_t * option obj) : Prop :=
  nmfs (fst x) /\ (forall p, snd x = Some p -> nmv (VObj p)).
Definition P_pairs n := forall ps par depth brace s, inv s -> okp (ps, par) ->
  brace = None \/ brace = Some c_rbrace ->
  pc (pairs_loop fs load_inc n ps par depth brace)
    (fun x s' => inv s' /\ okp x /\ exists its t, r_items its t /\
       match brace with
       | Some _ => s_rest s = t ++ c_rbrace :: s_rest s'
       | None => exists c, s_rest s = t ++ c /\ last_comment c /\ s_rest s' = []
       end) s.
Definition P_pair n := forall ps par depth brace s, inv s -> okp (ps, par) ->
  brace = None \/ brace = Some c_rbrace ->
  pc (parse_field_value_pair fs load_inc n ps par depth brace)
    (fun x s' => inv s' /\ okp (snd (fst x), snd x) /\
       ((fst (fst x) = false /\ brace = Some c_rbrace /\ s_rest s = c_rbrace :: s_rest s') \/
        exists f e w t w' c, item_name f /\ ws w /\ r_expr e t /\ ws w' /\
          s_rest s = f ++ c_colon :: w ++ t ++ w' ++ c /\
          if fst (fst x) then c = s_rest s' /\ (w' <> [] \/ exists r, c = c_rbrace :: r)
          else brace = None /\ last_comment c /\ s_rest s' = [])) s.
Definition P_arr n := forall pairs depth s, inv s -> nmfs pairs ->
  pc (parse_arr fs load_inc n pairs depth) (atm s) s.
Definition P_arrl n := forall pairs depth vs t any s, inv s -> nmfs pairs -> Forall nmv vs ->
  pc (arr_loop fs load_inc n pairs depth vs t any)
    (fun x s' => inv s' /\ Forall nmv (fst x) /\ exists w es u, ws w /\ r_elems es u /\
       s_rest s = w ++ u ++ c_rbrack :: s_rest s' /\ (folb (Some c_rbrack) (s_rest s) -> es = [] \/ w <> [])) s.
Definition P_tup n := forall pairs depth s, inv s -> nmfs pairs ->
  pc (parse_tup fs load_inc n pairs depth) (atm s) s.
Definition P_tupl n := forall pairs depth vs s, inv s -> nmfs pairs -> Forall nmv vs ->
  pc (tup_loop fs load_inc n pairs depth vs)
    (fun x s' => inv s' /\ Forall nmv x /\ exists w es u, ws w /\ r_elems es u /\
       s_rest s = w ++ u ++ c_rparen :: s_rest s' /\ (folb (Some c_rparen) (s_rest s) -> es = [] \/ w <> [])) s.
Definition P_var n := forall pairs line col depth brace s, inv s -> nmfs pairs ->
  pc (parse_variable fs load_inc n pairs line col depth brace)
    (fun v s' => inv s' /\ nmv v /\ exists t a, s_rest s = t ++ s_rest s' /\ r_atom a t /\ dot_sub a /\ fol (s_rest s')) s.
Definition P_inc n := forall pairs depth s, inv s -> nmfs pairs ->
  pc (parse_include fs load_inc n pairs depth) (atm s) s.
Definition P_all n := P_value n /\ P_ops n /\ P_unary n /\ P_obj n /\ P_pairs n /\ P_pair n /\
  P_arr n /\ P_arrl n /\ P_tup n /\ P_tupl n /\ P_var n /\ P_inc n.

Section Steps.
Variable n : nat.
Hypothesis H : P_all n.

Lemma cp_value : P_value (S n).
Proof.
  intros pairs line col depth brace first s K F.
  destruct H as (Hv & Ho & Hu & Hob & _ & _ & Ha & _ & Ht & _ & Hvar & Hi).
  rewrite parse_value_S. apply pc_bind, pc_peek_unwrap. intros c r R.
  apply pc_bind. eapply pc_mono with (Q := fun v s' => inv s' /\ nmv v /\ exists t a,
    s_rest s = t ++ s_rest s' /\ r_atom a t /\ (dot_start c -> dot_sub a) /\ (fol (s_rest s') \/ closed_atom a = true)).
  - assert (ND : forall m, (dot_start c -> False) -> pc m (atm s) s -> pc m (fun v s' => inv s' /\ nmv v /\ exists t a,
      s_rest s = t ++ s_rest s' /\ r_atom a t /\ (dot_start c -> dot_sub a) /\ (fol (s_rest s') \/ closed_atom a = true)) s).
    { intros m D P. eapply pc_mono; [exact P|]. intros v s' (K' & V & t & a & E & A & Cl). repeat split; auto; try apply K'.
      exists t, a. repeat split; auto. intros X. destruct (D X). }
    assert (DS : forall k, k < 44 \/ k = 45 \/ k = 47 \/ k = 60 \/ k = 91 \/ 122 < k < 127 -> c = k -> dot_start c -> False).
    { intros k Hk -> [D|[D|D]]; [lia| |].
      - apply valid_field_cases in D as [D|[[_ D]|[D|[D _]]]]; [apply alpha_range in D; lia|discriminate|lia|lia].
      - unfold is_numeric_char in D. rewrite !orb_true_iff, digit_range, !N.eqb_eq in D. lia. }
    destruct (N.eqb_spec c 34) as [E|_].
    { apply ND; [eapply DS; [|exact E]; lia|]. eapply pc_mono; [apply parse_str_pc; auto|].
      intros v s' (K' & V & cs & t & A & E'). repeat split; auto; try apply K'. exists t, (AStr cs). auto. }
    destruct (N.eqb_spec c 123) as [E|_]; [apply ND; [eapply DS; [|exact E]; lia|]; apply Hob; auto|].
    destruct (N.eqb_spec c 91) as [E|_]; [apply ND; [eapply DS; [|exact E]; lia|]; apply Ha; auto|].
    destruct (N.eqb_spec c 40) as [E|_]; [apply ND; [eapply DS; [|exact E]; lia|]; apply Ht; auto|].
    destruct (N.eqb_spec c 60) as [E|_]; [apply ND; [eapply DS; [|exact E]; lia|]; apply Hi; auto|].
    destruct (N.eqb_spec c 43) as [E|_]; [apply ND; [eapply DS; [|exact E]; lia|]; apply Hu; auto|].
    destruct (N.eqb_spec c 45) as [E|_]; [apply ND; [eapply DS; [|exact E]; lia|]; apply Hu; auto|].
    destruct (is_numeric_char c) eqn:Nc.
    { eapply pc_mono; [eapply parse_numeric_pc; eauto|]. intros v s' (K' & V & w & A & E & Fo).
      repeat split; auto; try apply K'. exists w, (ANum w). repeat split; auto. }
    destruct (is_valid_field_char c true || (c =? 64)); dead.
    eapply pc_mono; [apply Hvar; auto|]. intros v s' (K' & V & t & a & E & A & D & Fo).
    repeat split; auto; try apply K'. exists t, a. auto.
  - intros v s1 (K1 & V1 & t & a & E1 & A & D & Cl). destruct first.
    + apply pc_bind. eapply pc_mono; [apply Ho; auto; constructor; auto|].
      intros [vals ops] s2 (K2 & V2 & N2 & l & t' & L & E2). cbn [fst] in V2.
      apply pc_bind. eapply pc_mono; [apply check_end_pc; auto|]. intros [] s3 [-> Fb].
      destruct vals as [|[[v1 l1] c1] vals]; dead. inversion V2; subst.
      eapply pc_mono; [apply low_pc; auto|]. intros u s4 (K4 & V4 & R4).
      split; [exact K4|]. split; [exact V4|]. exists (t ++ t'). rewrite R4, <- app_assoc, <- E2. split; [exact E1|].
      split; [exists (Ex a l); constructor; auto|exact Fb].
    + apply pc_ret. split; [exact K1|]. split; [exact V1|]. exists t. split; auto. exists a. split; auto.
      split; [|exact Cl]. intros c' r' R'. rewrite R in R'. injection R' as <- _. exact D.
Qed.

Lemma get_op_text c op : get_op c = Some op -> c = op_text op.
Proof.
  unfold get_op. destruct (N.eqb_spec c 43); [intros E; inversion E; auto|].
  destruct (N.eqb_spec c 45); [intros E; inversion E; auto|].
  destruct (N.eqb_spec c 42); [intros E; inversion E; auto|].
  destruct (N.eqb_spec c 47); [intros E; inversion E; auto|].
  destruct (N.eqb_spec c 37); [intros E; inversion E; auto|]. discriminate.
Qed.

Lemma cp_ops : P_ops (S n).
Proof.
  intros pairs depth brace vals ops s K F V. destruct H as (Hv & Ho & _).
  rewrite parse_ops_S. apply pc_bind, pc_peek.
  destruct (s_rest s) as [|c r] eqn:R; cbn [hd_error].
  { apply pc_ret. split; [auto|]. split; auto. split; [rewrite R; discriminate|]. exists [], []. split; [constructor|rewrite R; reflexivity]. }
  destruct (get_op c) as [op|] eqn:O.
  2:{ apply pc_ret. split; [auto|]. split; auto. split; [rewrite R; intros c' r' E; inversion E; subst; auto|].
      exists [], []. split; [constructor|rewrite R; reflexivity]. }
  apply get_op_text in O. apply pc_bind. eapply pc_next; [exact R|]. apply pc_bind, pc_peek. rewrite adv1_rest.
  destruct r as [|c2 r]; cbn [hd_error]; [dead|].
  apply pc_bind, pc_getpos. intros [l2 k2]. apply pc_bind. eapply pc_mono; [apply Hv; auto|].
  intros v2 s1 (K1 & V1 & t & E1 & a & A & _ & _). cbn [adv1 set_stream s_rest] in E1.
  assert (G : forall vs os s2, inv s2 -> s_rest s2 = s_rest s1 -> vals_ok vs ->
    pc (parse_ops fs load_inc n pairs depth brace vs os)
      (fun x s' => inv s' /\ vals_ok (fst x) /\ (forall c r, s_rest s' = c :: r -> get_op c = None) /\
       exists l t, r_chain l t /\ c :: c2 :: r = t ++ s_rest s') s2).
  { intros vs os s2 K2 R2 V2. eapply pc_mono; [apply Ho; auto|]. intros x s3 (K3 & V3 & N3 & l & t' & L & E3).
    split; [exact K3|]. split; [exact V3|]. split; [exact N3|]. exists ((op, a) :: l), (op_text op :: t ++ t').
    split; [constructor; auto|]. rewrite E1, O. cbn. f_equal. rewrite <- app_assoc. f_equal. rewrite <- R2. exact E3. }
  destruct (is_priority op).
  - pose proof (pop_back_spec vals) as PB. destruct (pop_back vals) as [[vals' [[v1 l1] c1]]|]; dead. subst vals.
    apply Forall_app in V as [V' V'']. inversion V''; subst.
    apply pc_bind. eapply pc_mono; [apply binary_pc; auto|]. intros u s2 (K2 & U2 & R2).
    apply G; auto. apply Forall_app. split; auto.
  - apply G; auto. apply Forall_app. split; auto.
Qed.

Lemma cp_unary : P_unary (S n).
Proof.
  intros pairs depth brace op s K F. destruct H as (Hv & _).
  rewrite parse_unary_op_S. apply pc_bind.
  destruct (s_rest s) as [|c r] eqn:R.
  { unfold pc, next. rewrite R. unfold bind, assert_. destruct op; exact I. }
  eapply pc_next; [exact R|]. apply pc_bind, pc_assert. intros C.
  apply pc_bind, pc_getpos. intros [l k]. apply pc_bind, pc_peek. rewrite adv1_rest.
  destruct (hd_error r); [|dead]. apply pc_bind. eapply pc_mono; [apply Hv; auto|].
  intros v s1 (K1 & V1 & t & E1 & a & A & _ & Cl). cbn [adv1 set_stream s_rest] in E1.
  eapply pc_mono; [apply unary_pc; auto|]. intros u s2 (K2 & U2 & R2).
  split; [exact K2|]. split; [exact U2|]. exists (unop_text op :: t), (AUn op a). split; [|split; [constructor; auto|rewrite R2; exact Cl]].
  rewrite R, E1, R2. cbn. f_equal. destruct op; cbn in C; apply N.eqb_eq in C; auto.
Qed.

(** White space was skipped up to a character; if none, that character closes the bracket. *)
Lemma sep_close b w c r : folb (Some b) (w ++ c :: r) -> is_whitespace c = false -> w = [] -> c = b.
Proof.
  intros Hf W ->. destruct Hf as [Hf|(c' & r' & E & [D|[_ D]])]; [discriminate| |]; cbn in E; inversion E; subst; congruence.
Qed.

Lemma cp_obj : P_obj (S n).
Proof.
  intros depth s K. destruct H as (_ & _ & _ & _ & Hp & _).
  rewrite parse_obj_S. destruct (MAX_DEPTH <? depth); [dead|].
  apply pc_bind, pc_next_unwrap. intros c r R. apply pc_bind, pc_assert. intros C. apply N.eqb_eq in C. subst c.
  apply pc_bind, pc_find_char; [|intros; dead].
  intros s1 w c r1 G1 S1 E1 W1 R1 N1. cbn [negb]. cbn [adv1 set_stream s_rest] in E1.
  apply pc_bind. eapply pc_mono; [apply Hp; auto|].
  { exact (inv_eq _ _ G1 S1 (inv_adv1 _ _ _ K)). }
  { split; [apply nmfs_nil|discriminate]. }
  intros [ps par] s2 (K2 & [O1 O2] & its & t & It & E2). cbn [fst snd] in *.
  unfold new_obj. apply pc_bind, pc_bind, pc_gen_id. intros i s3 K3 R3. apply pc_ret, pc_ret.
  split; [auto|]. split; [apply nmv_obj; split; auto|]. exists (123 :: w ++ t ++ [125]), (AObj its).
  split; [|split; [constructor; auto|right; reflexivity]]. rewrite R, E1, <- R1, E2, R3. cbn. rewrite <- !app_assoc. reflexivity.
Qed.

Lemma item_not_close f x r : item_name f -> f ++ x = 125 :: r -> False.
Proof.
  intros Hf E. destruct (item_head f Hf) as (c & r' & -> & _ & D). cbn in E. inversion E; subst. discriminate.
Qed.

Lemma cp_pairs : P_pairs (S n).
Proof.
  intros ps par depth brace s K O B. destruct H as (_ & _ & _ & _ & Hps & Hp & _).
  rewrite pairs_loop_S. apply pc_bind. eapply pc_mono; [apply Hp; auto|].
  intros [[more ps'] par'] s1 (K1 & O1 & D). cbn [fst snd] in *. destruct more.
  - destruct D as [(D & _)|(f & e & w & t & w' & c & Hf & W & E & W' & Et & -> & D)]; [discriminate|].
    eapply pc_mono; [apply Hps; auto|]. intros x s2 (K2 & O2 & its & t2 & It & E2).
    split; [exact K2|]. split; [exact O2|]. exists ((f, e) :: its), (f ++ 58 :: w ++ t ++ w' ++ t2).
    assert (A : its = [] \/ w' <> []).
    { destruct D as [D|[r D]]; auto. left. inversion It as [|f1 e1 its1 w1 u1 w1' u1' Hf1 _ _ _ _ _]; subst; auto.
      exfalso. destruct brace as [b|].
      - rewrite D, <- app_assoc in E2. symmetry in E2. eapply item_not_close; eauto.
      - destruct E2 as (c' & E2 & _). rewrite D, <- app_assoc in E2. symmetry in E2. eapply item_not_close; eauto. }
    split; [constructor; auto|]. destruct brace as [b|].
    + rewrite Et, E2. repeat (rewrite <- ?app_assoc; cbn [app]). reflexivity.
    + destruct E2 as (c' & E2 & L & R2). exists c'. split; [|auto]. rewrite Et, E2.
      repeat (rewrite <- ?app_assoc; cbn [app]). reflexivity.
  - apply pc_ret. split; [exact K1|]. split; [exact O1|].
    destruct D as [(_ & -> & E)|(f & e & w & t & w' & c & Hf & W & E & W' & Et & -> & L & R1)].
    + exists [], []. split; [constructor|exact E].
    + exists [(f, e)], (f ++ 58 :: w ++ t ++ w' ++ []). split; [constructor; auto; constructor|].
      exists c. split; [|auto]. rewrite Et. repeat (rewrite <- ?app_assoc; cbn [app]). reflexivity.
Qed.

Lemma cp_pair : P_pair (S n).
Proof.
  intros ps par depth brace s K [O1 O2] B. cbn [fst snd] in O1, O2. destruct H as (Hv & _).
  rewrite parse_field_value_pair_S. apply pc_bind, pc_peek_unwrap. intros pk r R.
  destruct ((pk =? 125) && match brace with Some _ => true | None => false end) eqn:C.
  { apply andb_true_iff in C as [C1 C2]. apply N.eqb_eq in C1. subst pk.
    destruct B as [->| ->]; [discriminate|].
    apply pc_bind. eapply pc_next; [exact R|]. apply pc_ret. cbn [fst snd].
    split; [exact K|]. split; [split; auto|]. left. repeat split; auto. }
  destruct (is_end_delimiter pk) eqn:D; [dead|].
  apply pc_bind, pc_getpos. intros [fl fc]. apply pc_bind. eapply pc_mono; [apply parse_field_pc; auto|].
  intros [f ft] s1 [Q1 G]. cbn [fst snd] in G. pose proof (quiet_inv _ _ Q1 K) as K1.
  apply pc_bind. eapply pc_mono with (Q := fun _ s' => s' = s1).
  { destruct ft.
    - apply pc_bind, pc_globals. destruct (assoc f _); [dead|]. apply pc_ret; auto.
    - destruct par; [dead|]. apply pc_ret; auto.
    - match goal with |- context [existsb ?x ps] => destruct (existsb x ps) end; [dead|]. apply pc_ret; auto. }
  intros [] s1' ->. apply pc_bind, pc_find_char; [|intros; dead].
  intros s2 w c2 r2 G2 S2 E2 W2 R2 N2. cbn [negb].
  assert (N1 : s_rest s1 <> []) by (rewrite E2; destruct w; discriminate). destruct (G N1) as (Hf & Ef & Hreg).
  pose proof (inv_eq _ _ G2 S2 K1) as K2.
  apply pc_bind, pc_getpos. intros [vl vc]. apply pc_bind. eapply pc_mono; [apply Hv; auto|].
  intros v s3 (K3 & V3 & t & E3 & [e Ee] & Fb).
  apply pc_bind. eapply pc_mono with (Q := fun x s' => inv s' /\ s_rest s' = s_rest s3 /\ okp x).
  { destruct ft.
    - apply pc_bind. unfold pc, insert_global. apply pc_ret. split; [|split; [reflexivity|split; auto]].
      destruct K3 as [K31 K32]. split; [constructor; auto|exact K32].
    - destruct v; cbn [get_obj]; try solve [dead]. apply pc_ret. split; [auto|]. split; auto. split; auto.
      cbn. intros p Ep. inversion Ep; subst; auto.
    - apply pc_ret. split; [auto|]. split; auto. split; [|auto]. destruct O1 as [O11 O12]. split; cbn [fst].
      + rewrite map_app. apply Forall_app. split; auto. constructor; [apply Hreg; auto|constructor].
      + apply Forall_app. split; auto. }
  intros [ps' par'] s4 (K4 & R4 & O4). apply pc_bind, pc_find_char.
  - intros s5 w' c5 r5 G5 S5 E5 W5 R5 N5. cbn [negb]. apply pc_ret. cbn [fst snd].
    split; [exact (inv_eq _ _ G5 S5 K4)|]. split; [exact O4|]. right. exists f, e, w, t, w', (s_rest s5).
    split; auto. split; auto. split; auto. split; auto. split.
    { rewrite Ef, E2, <- R2, E3, <- R4, E5, R5. reflexivity. }
    split; auto. destruct w' as [|x w']; [right|left; discriminate]. rewrite <- R4, E5 in Fb.
    destruct B as [->| ->].
    + exfalso. destruct Fb as [Fb|(c' & r' & Ec & [Fw|[_ Fw]])]; [discriminate| |discriminate].
      cbn in Ec. inversion Ec; subst. congruence.
    + apply sep_close in Fb; auto. subst c5. exists r5. auto.
  - intros s5 w' c5 G5 S5 E5 W5 L5 R5. cbn [negb]. destruct brace as [b|]; [dead|]. apply pc_ret. cbn [fst snd].
    split; [exact (inv_eq _ _ G5 S5 K4)|]. split; [exact O4|]. right. exists f, e, w, t, w', c5.
    split; auto. split; auto. split; auto. split; auto. split; [|auto].
    rewrite Ef, E2, <- R2, E3, <- R4, E5. reflexivity.
Qed.

Lemma cp_arr : P_arr (S n).
Proof.
  intros pairs depth s K F. destruct H as (_ & _ & _ & _ & _ & _ & _ & Hl & _).
  rewrite parse_arr_S. destruct (MAX_DEPTH <? depth); [dead|].
  apply pc_bind, pc_next_unwrap. intros c r R. apply pc_bind, pc_assert. intros C. apply N.eqb_eq in C. subst c.
  apply pc_bind. eapply pc_mono; [apply Hl; auto|].
  intros [vs t] s1 (K1 & V1 & w & es & u & W & E & Eq & _). cbn [fst] in V1. cbn [adv1 set_stream s_rest] in Eq.
  unfold new_arr. apply pc_bind, pc_bind, pc_gen_id. intros i s3 K3 R3. apply pc_ret, pc_ret.
  split; [auto|]. split; [apply nmv_arr; auto|]. exists (91 :: w ++ u ++ [93]), (AArr es).
  split; [|split; [constructor; auto|right; reflexivity]]. rewrite R, Eq, R3. cbn. rewrite <- !app_assoc. reflexivity.
Qed.
Lemma cp_tup : P_tup (S n).
Proof.
  intros pairs depth s K F. destruct H as (_ & _ & _ & _ & _ & _ & _ & _ & _ & Hl & _).
  rewrite parse_tup_S. destruct (MAX_DEPTH <? depth); [dead|].
  apply pc_bind, pc_next_unwrap. intros c r R. apply pc_bind, pc_assert. intros C. apply N.eqb_eq in C. subst c.
  apply pc_bind. eapply pc_mono; [apply Hl; auto|].
  intros vs s1 (K1 & V1 & w & es & u & W & E & Eq & _). cbn [adv1 set_stream s_rest] in Eq.
  unfold new_tup. apply pc_bind, pc_bind, pc_gen_id. intros i s3 K3 R3. apply pc_ret, pc_ret.
  split; [auto|]. split; [apply nmv_tup; auto|]. exists (40 :: w ++ u ++ [41]), (ATup es).
  split; [|split; [constructor; auto|right; reflexivity]]. rewrite R, Eq, R3. cbn. rewrite <- !app_assoc. reflexivity.
Qed.

(** One element and the rest of the list. *)
Lemma elems_step b (s1 s2 s3 : pstate) w e t w2 es u :
  ws w -> s_rest s1 = t ++ s_rest s2 -> r_expr e t -> folb (Some b) (s_rest s2) ->
  ws w2 -> r_elems es u -> s_rest s2 = w2 ++ u ++ b :: s_rest s3 -> (folb (Some b) (s_rest s2) -> es = [] \/ w2 <> []) ->
  r_elems (e :: es) (t ++ w2 ++ u) /\ s_rest s1 = (t ++ w2 ++ u) ++ b :: s_rest s3.
Proof.
  intros W E1 Ee Fb W2 Eu E2 Sp. split; [constructor; auto|]. rewrite E1, E2, <- !app_assoc. reflexivity.
Qed.

Lemma cp_arrl : P_arrl (S n).
Proof.
  intros pairs depth vs t any s K F V. destruct H as (Hv & _ & _ & _ & _ & _ & _ & Hl & _).
  rewrite arr_loop_S. apply pc_bind, pc_find_char; [|intros; dead].
  intros s1 w c r G1 S1 E1 W1 R1 N1. cbn [negb]. pose proof (inv_eq _ _ G1 S1 K) as K1.
  apply pc_bind, pc_peek_unwrap. intros c' r' R1'. assert (c' = c) as -> by congruence. clear r' R1'.
  destruct (N.eqb_spec c 93) as [->|N].
  { apply pc_bind. eapply pc_next; [exact R1|]. apply pc_ret. split; [exact K1|]. split; auto.
    exists w, [], []. split; auto. split; [constructor|]. split; [exact E1|auto]. }
  destruct (is_end_delimiter c) eqn:D; [dead|].
  apply pc_bind, pc_getpos. intros [vl vc]. apply pc_bind. eapply pc_mono; [apply Hv; auto|].
  intros v s2 (K2 & V2 & u & E2 & [e Ee] & Fb).
  destruct (arr_check_step t any (get_type v)) as [[t' any']|[t1 t2]]; [|dead].
  eapply pc_mono; [apply Hl; auto; apply Forall_app; auto|].
  intros [vs' t''] s3 (K3 & V3 & w2 & es & u2 & W2 & Eu & E3 & Sp). split; [exact K3|]. split; [exact V3|].
  destruct (elems_step 93 s1 s2 s3 w e u w2 es u2) as [A B]; auto.
  exists w, (e :: es), (u ++ w2 ++ u2). split; auto. split; auto. split; [rewrite E1, <- R1, B; reflexivity|].
  intros Fs. right. intros ->. rewrite E1 in Fs. apply sep_close in Fs; auto. 
Qed.
Lemma cp_tupl : P_tupl (S n).
Proof.
  intros pairs depth vs s K F V. destruct H as (Hv & _ & _ & _ & _ & _ & _ & _ & _ & Hl & _).
  rewrite tup_loop_S. apply pc_bind, pc_find_char; [|intros; dead].
  intros s1 w c r G1 S1 E1 W1 R1 N1. cbn [negb]. pose proof (inv_eq _ _ G1 S1 K) as K1.
  apply pc_bind, pc_peek_unwrap. intros c' r' R1'. assert (c' = c) as -> by congruence. clear r' R1'.
  destruct (N.eqb_spec c 41) as [->|N].
  { apply pc_bind. eapply pc_next; [exact R1|]. apply pc_ret. split; [exact K1|]. split; auto.
    exists w, [], []. split; auto. split; [constructor|]. split; [exact E1|auto]. }
  destruct (is_end_delimiter c) eqn:D; [dead|].
  apply pc_bind, pc_getpos. intros [vl vc]. apply pc_bind. eapply pc_mono; [apply Hv; auto|].
  intros v s2 (K2 & V2 & u & E2 & [e Ee] & Fb).
  eapply pc_mono; [apply Hl; auto; apply Forall_app; auto|].
  intros vs' s3 (K3 & V3 & w2 & es & u2 & W2 & Eu & E3 & Sp). split; [exact K3|]. split; [exact V3|].
  destruct (elems_step 41 s1 s2 s3 w e u w2 es u2) as [A B]; auto.
  exists w, (e :: es), (u ++ w2 ++ u2). split; auto. split; auto. split; [rewrite E1, <- R1, B; reflexivity|].
  intros Fs. right. intros ->. rewrite E1 in Fs. apply sep_close in Fs; auto. 
Qed.

Lemma cp_var : P_var (S n).
Proof.
  intros pairs line col depth brace s K F. destruct H as (Hv & _ & _ & _ & _ & _ & _ & _ & _ & _ & Hvar & _).
  rewrite parse_variable_S. apply pc_bind, pc_peek_unwrap. intros ch r R.
  set (g := ch =? 64) in *. cbv zeta.
  apply pc_bind. eapply pc_mono with (Q := fun v0 s' => quiet s s' /\ v0 = (if g then [64] else []) /\ s_rest s = v0 ++ s_rest s').
  { destruct (N.eqb_spec ch 64) as [->|N]; subst g.
    - apply pc_bind, pc_next_unwrap. intros c r' R'. apply pc_ret. split; [split; reflexivity|]. 
      rewrite R in R'. inversion R'; subst. split; auto.
    - apply pc_ret. split; [split; reflexivity|]. auto. }
  intros v0 s1 (Q1 & -> & E1). pose proof (quiet_inv _ _ Q1 K) as K1. clear Q1.
  apply pc_bind. unfold pc at 1. destruct (scan_var _ _ _ _) as [x [[r1 l1] k1]] eqn:S.
  apply scan_var_text in S. cbn [fst] in S.
  set (s2 := set_stream s1 r1 l1 k1). assert (K2 : inv s2) by exact K1.
  (* the name *)
  assert (NM : forall nm, Forall letter_or_digit nm -> (g = true -> (if g then [64] else []) ++ nm <> [64]) ->
     (g = false -> var_name false ((if g then [64] else []) ++ nm)) -> var_name g nm).
  { intros nm Fn H1 H2. destruct g.
    - destruct nm as [|c nm]; [exfalso; apply H1; auto|]. inversion Fn; subst. exists c, nm. auto.
    - apply H2. auto. }
  destruct x as [var|var|c]; [| |apply pc_bind; dead].
  - destruct S as (nm & -> & E & Fn & Fo). apply pc_bind, pc_ret.
    apply pc_bind. eapply pc_mono; [apply lookup_pc; auto|].
    { destruct g; [intros _; eexists; reflexivity|discriminate]. }
    intros v s3 ((K3 & V3 & R3) & H1 & H2). apply pc_ret. split; [exact K3|]. split; [exact V3|].
    exists ((if g then [64] else []) ++ nm), (AVar g nm). split; [|split; [constructor; auto|split; [exact I|rewrite R3; exact Fo]]].
    rewrite E1, E, R3, <- app_assoc. reflexivity.
  - destruct S as (nm & -> & E & Fn). apply pc_bind.
    eapply pc_mono with (Q := fun x s' => s' = s2 /\ fst (fst x) = (if g then [64] else []) ++ nm /\ snd (fst x) = true /\
      exists c r, s_rest s2 = c :: r /\ dot_start c).
    { apply pc_bind, pc_peek. destruct (s_rest s2) as [|c r2] eqn:R2; cbn [hd_error]; [dead|].
      destruct (N.eqb_spec c 64) as [->|N]; [apply pc_ret; repeat split; auto; eexists _, _; split; eauto; left; auto|].
      destruct (is_valid_field_char c true || is_numeric_char c) eqn:C; [|dead].
      apply pc_ret; repeat split; auto; eexists _, _; split; eauto. apply orb_true_iff in C. right. auto. }
    intros [[var dot] dg] s2' (-> & Hvar' & Hdot & c & r2 & R2 & D). cbn [fst snd] in *. subst var dot.
    apply pc_bind. eapply pc_mono; [apply lookup_pc; auto|].
    { destruct g; [intros _; eexists; reflexivity|discriminate]. }
    intros v s3 ((K3 & V3 & R3) & H1 & H2).
    assert (FIN : forall sub t s4, s_rest s3 = t ++ s_rest s4 -> r_atom sub t -> dot_sub sub -> fol (s_rest s4) \/ closed_atom sub = true ->
      exists t a, s_rest s = t ++ s_rest s4 /\ r_atom a t /\ dot_sub a /\ fol (s_rest s4)).
    { intros sub t s4 E4 A Ds Cl. exists ((if g then [64] else []) ++ nm ++ 46 :: t), (ADot g nm sub).
      split; [|split; [constructor; auto|split; [exact I|destruct Cl as [Cl|Cl]; [exact Cl|destruct sub; try contradiction; discriminate]]]].
      rewrite E1, E. change r1 with (s_rest s2). rewrite <- R3, E4. repeat (rewrite <- ?app_assoc; cbn [app]). reflexivity. }
    destruct v; try solve [dead].
    + apply pc_bind, pc_getpos. intros [l4 k4]. apply pc_bind. eapply pc_mono; [apply Hv; auto|].
      intros idx s4 (K4 & V4 & t & E4 & sub & A & Ds & Cl). eapply pc_mono; [apply index_pc; auto; intros; eapply arr_get_nm; eauto|].
      intros u s5 (K5 & V5 & R5). split; [exact K5|]. split; [exact V5|]. rewrite R5. eapply FIN; eauto. eapply Ds; [rewrite R3|]; eauto.
    + apply pc_bind, pc_getpos. intros [l4 k4]. apply pc_bind. eapply pc_mono; [apply Hv; auto|].
      intros idx s4 (K4 & V4 & t' & E4 & sub & A & Ds & Cl). eapply pc_mono; [apply index_pc; auto; intros; eapply tup_get_nm; eauto|].
      intros u s5 (K5 & V5 & R5). split; [exact K5|]. split; [exact V5|]. rewrite R5. eapply FIN; eauto. eapply Ds; [rewrite R3|]; eauto.
    + apply pc_bind, pc_getpos. intros [l4 k4]. destruct dg; [dead|].
      eapply pc_mono; [apply Hvar; auto; destruct o; apply nmv_obj in V3; apply V3|].
      intros u s4 (K4 & V4 & t & sub & E4 & A & Ds & Fo). split; [exact K4|]. split; [exact V4|]. eapply FIN; eauto.
Qed.

Lemma expr_not_gt e t x r : r_expr e t -> t ++ x = 62 :: r -> False.
Proof.
  intros He E. destruct (r_expr_head e t He) as (c & r' & -> & _ & D). cbn in E. inversion E; subst. discriminate.
Qed.

Lemma cp_inc : P_inc (S n).
Proof.
  intros pairs depth s K F. destruct H as (Hv & _).
  rewrite parse_include_S. destruct (MAX_DEPTH <? depth); [dead|].
  apply pc_bind, pc_next_unwrap. intros c r R. apply pc_bind, pc_assert. intros C. apply N.eqb_eq in C. subst c.
  apply pc_bind, pc_find_char; [|intros; dead].
  intros s1 w c r1 G1 S1 E1 W1 R1 N1. cbn [negb]. cbn [adv1 set_stream s_rest] in E1.
  pose proof (inv_eq _ _ G1 S1 (inv_adv1 _ _ _ K)) as K1.
  apply pc_bind, pc_getpos. intros [l1 k1]. apply pc_bind. eapply pc_mono; [apply Hv; auto|].
  intros v s2 (K2 & V2 & t & E2 & [e Ee] & Fb).
  apply pc_bind. eapply pc_mono; [apply token_pc; auto|]. intros tok s3 (K3 & R3).
  apply pc_bind. eapply pc_mono with (Q := fun x s' => inv s' /\ exists path u,
     s_rest s2 = u ++ s_rest s' /\ match path with
       | None => u = []
       | Some e2 => exists w' t2, u = w' ++ t2 /\ ws w' /\ w' <> [] /\ r_expr e2 t2 end).
  { destruct tok as [ity|[]].
    - apply pc_bind, pc_find_char; [|intros; dead].
      intros s4 w' c4 r4 G4 S4 E4 W4 R4 N4. cbn [negb]. pose proof (inv_eq _ _ G4 S4 K3) as K4.
      apply pc_bind, pc_getpos. intros [l4 k4]. apply pc_bind. eapply pc_mono; [apply Hv; auto|].
      intros v' s5 (K5 & V5 & t2 & E5 & [e2 Ee2] & Fb2). apply pc_ret. split; [exact K5|].
      exists (Some e2), (w' ++ t2). split; [rewrite <- R3, E4, <- R4, E5, <- app_assoc; reflexivity|].
      exists w', t2. split; auto. split; auto. split; auto. intros ->.
      rewrite <- R3, E4 in Fb. apply sep_close in Fb; auto. subst c4. rewrite R4 in E5. symmetry in E5. eapply expr_not_gt; eauto.
    - apply pc_ret. split; [exact K3|]. exists None, []. split; [rewrite R3; reflexivity|reflexivity]. }
  intros [[[ity v'] l4] k4] s4 (K4 & path & u & E4 & P). apply pc_bind, pc_find_char; [|intros; dead].
  intros s5 w5 c5 r5 G5 S5 E5 W5 R5 N5. cbn [negb]. pose proof (inv_eq _ _ G5 S5 K4) as K5.
  apply pc_bind, pc_next_unwrap. intros c6 r6 R6. assert (c6 = c5 /\ r6 = r5) as [-> ->] by (split; congruence).
  destruct (N.eqb_spec c5 62) as [->|N6]; cbn [negb]; [|dead].
  destruct v'; try solve [dead].
  eapply pc_mono; [apply finish_pc; exact (inv_adv1 _ _ _ K5)|]. intros x s7 (K7 & V7 & R7). cbn [adv1 set_stream s_rest] in R7.
  split; [exact K7|]. split; [exact V7|]. rewrite R7. destruct path as [e2|].
  - destruct P as (w' & t2 & -> & W' & Nw & Ee2).
    exists (60 :: w ++ t ++ w' ++ t2 ++ w5 ++ [62]), (AInc e (Some e2)). split; [|split; [constructor; auto|right; reflexivity]].
    rewrite R, E1, <- R1, E2, E4, E5. repeat (rewrite <- ?app_assoc; cbn [app]). reflexivity.
  - subst u. exists (60 :: w ++ t ++ w5 ++ [62]), (AInc e None). split; [|split; [constructor; auto|right; reflexivity]].
    rewrite R, E1, <- R1, E2, E4, E5. repeat (rewrite <- ?app_assoc; cbn [app]). reflexivity.
Qed.
End Steps.

Lemma P_all_0 : P_all 0.
Proof. repeat split; intros ?; intros; exact I. Qed.
Lemma P_all_holds n : P_all n.
Proof.
  induction n as [|n IH]; [apply P_all_0|].
  split; [apply cp_value; auto|]. split; [apply cp_ops; auto|]. split; [apply cp_unary; auto|].
  split; [apply cp_obj; auto|]. split; [apply cp_pairs; auto|]. split; [apply cp_pair; auto|].
  split; [apply cp_arr; auto|]. split; [apply cp_arrl; auto|]. split; [apply cp_tup; auto|].
  split; [apply cp_tupl; auto|]. split; [apply cp_var; auto|]. apply cp_inc; auto.
Qed.

(** ** Streams *)
Lemma obj_stream_pc n s : inv s ->
  pc (parse_obj_stream fs load_inc n) (fun _ _ => exists its, r_doc its (s_rest s)) s.
Proof.
  intros K. unfold parse_obj_stream. apply pc_bind, pc_find_char.
  - intros s1 w c r G1 S1 E1 W1 R1 N1. cbn [negb]. destruct (P_all_holds n) as (_ & _ & _ & _ & Hp & _).
    apply pc_bind. eapply pc_mono; [apply Hp; [exact (inv_eq _ _ G1 S1 K)|split; [apply nmfs_nil|discriminate]|auto]|].
    intros [ps par] s2 (K2 & _ & its & t & It & c' & E2 & L & _).
    unfold new_obj. apply pc_bind, pc_gen_id. intros i s3 _ _. apply pc_ret.
    exists its, w, t, c'. split; auto. rewrite E1, <- R1, E2. reflexivity.
  - intros s1 w c G1 S1 E1 W1 L1 R1. cbn [negb]. unfold new_obj. apply pc_bind, pc_gen_id. intros i s3 _ _. apply pc_ret.
    exists [], w, [], c. repeat split; auto. constructor.
Qed.

(** After an element (or the beginning of the file), the rest of a list file. *)
Lemma arr_file_pc n : forall vs t any s, inv s ->
  pc (arr_file_loop fs load_inc n vs t any) (fun _ _ => exists w es u c, s_rest s = w ++ u ++ c /\ ws w /\ r_elems es u /\
    last_comment c /\ (folb None (s_rest s) -> es = [] \/ w <> [])) s.
Proof.
  induction n as [|n IH]; intros vs t any s K; [exact I|]. cbn [arr_file_loop].
  destruct (P_all_holds n) as (Hv & _).
  apply pc_bind, pc_find_char.
  - intros s1 w c r G1 S1 E1 W1 R1 N1. cbn [negb]. apply pc_bind, pc_getpos. intros [l k].
    apply pc_bind. eapply pc_mono; [apply Hv; [exact (inv_eq _ _ G1 S1 K)|apply nmfs_nil]|].
    intros v s2 (K2 & V2 & u & E2 & [e Ee] & Fb).
    destruct (arr_check_step t any (get_type v)) as [[t' any']|[t1 t2]]; [|dead].
    eapply pc_mono; [apply IH; exact K2|]. intros _ _ (w2 & es & u2 & c2 & E3 & W2 & Eu & L & Sp).
    exists w, (e :: es), (u ++ w2 ++ u2), c2. split; [rewrite E1, <- R1, E2, E3, <- !app_assoc; reflexivity|].
    split; auto. split; [constructor; auto|]. split; auto. intros Fs. right. intros ->.
    rewrite E1 in Fs. destruct Fs as [Fs|(c' & r' & Ec & [Fw|[_ Fw]])]; [discriminate| |discriminate].
    cbn in Ec. inversion Ec; subst. congruence.
  - intros s1 w c G1 S1 E1 W1 L1 R1. cbn [negb]. apply pc_ret. exists w, [], [], c. repeat split; auto. constructor.
Qed.
Lemma tup_file_pc n : forall vs s, inv s ->
  pc (tup_file_loop fs load_inc n vs) (fun _ _ => exists w es u c, s_rest s = w ++ u ++ c /\ ws w /\ r_elems es u /\
    last_comment c /\ (folb None (s_rest s) -> es = [] \/ w <> [])) s.
Proof.
  induction n as [|n IH]; intros vs s K; [exact I|]. cbn [tup_file_loop].
  destruct (P_all_holds n) as (Hv & _).
  apply pc_bind, pc_find_char.
  - intros s1 w c r G1 S1 E1 W1 R1 N1. cbn [negb]. apply pc_bind, pc_getpos. intros [l k].
    apply pc_bind. eapply pc_mono; [apply Hv; [exact (inv_eq _ _ G1 S1 K)|apply nmfs_nil]|].
    intros v s2 (K2 & V2 & u & E2 & [e Ee] & Fb).
    eapply pc_mono; [apply IH; exact K2|]. intros _ _ (w2 & es & u2 & c2 & E3 & W2 & Eu & L & Sp).
    exists w, (e :: es), (u ++ w2 ++ u2), c2. split; [rewrite E1, <- R1, E2, E3, <- !app_assoc; reflexivity|].
    split; auto. split; [constructor; auto|]. split; auto. intros Fs. right. intros ->.
    rewrite E1 in Fs. destruct Fs as [Fs|(c' & r' & Ec & [Fw|[_ Fw]])]; [discriminate| |discriminate].
    cbn in Ec. inversion Ec; subst. congruence.
  - intros s1 w c G1 S1 E1 W1 L1 R1. cbn [negb]. apply pc_ret. exists w, [], [], c. repeat split; auto. constructor.
Qed.
Lemma arr_stream_pc n s : inv s ->
  pc (parse_arr_stream fs load_inc n) (fun _ _ => exists es, r_list es (s_rest s)) s.
Proof.
  intros K. unfold parse_arr_stream. apply pc_bind. eapply pc_mono; [apply arr_file_pc; auto|].
  intros [vs t] s1 (w & es & u & c & E & W & Eu & L & _). unfold new_arr. apply pc_bind, pc_gen_id. intros i s3 _ _.
  apply pc_ret. exists es, w, u, c. auto.
Qed.
Lemma tup_stream_pc n s : inv s ->
  pc (parse_tup_stream fs load_inc n) (fun _ _ => exists es, r_list es (s_rest s)) s.
Proof.
  intros K. unfold parse_tup_stream. apply pc_bind. eapply pc_mono; [apply tup_file_pc; auto|].
  intros vs s1 (w & es & u & c & E & W & Eu & L & _). unfold new_tup. apply pc_bind, pc_gen_id. intros i s3 _ _.
  apply pc_ret. exists es, w, u, c. auto.
Qed.
End Main.

(** ** Loading *)
Section Load.
Context `{U : Unicode}.
Variable fs : fsys.

Lemma run_doc k n file text sh o sh' : wfvals sh ->
  run_stream (parse_obj_stream fs (load_file fs k) n) file text sh = (Ok o, sh') -> exists its, r_doc its text.
Proof.
  intros W E. pose proof (obj_stream_pc fs (load_file fs k) (load_wf fs k) n (mkst file text 1 1 [] sh)
    (conj (Forall_nil _) W)) as P.
  unfold pc in P. unfold run_stream in E. destruct (parse_obj_stream _ _ _ _) as [[]]; inversion E; subst; auto.
Qed.
Lemma run_arr_list k n file text sh o sh' : wfvals sh ->
  run_stream (parse_arr_stream fs (load_file fs k) n) file text sh = (Ok o, sh') -> exists its, r_list its text.
Proof.
  intros W E. pose proof (arr_stream_pc fs (load_file fs k) (load_wf fs k) n (mkst file text 1 1 [] sh)
    (conj (Forall_nil _) W)) as P.
  unfold pc in P. unfold run_stream in E. destruct (parse_arr_stream _ _ _ _) as [[]]; inversion E; subst; auto.
Qed.
Lemma run_tup_list k n file text sh o sh' : wfvals sh ->
  run_stream (parse_tup_stream fs (load_file fs k) n) file text sh = (Ok o, sh') -> exists its, r_list its text.
Proof.
  intros W E. pose proof (tup_stream_pc fs (load_file fs k) (load_wf fs k) n (mkst file text 1 1 [] sh)
    (conj (Forall_nil _) W)) as P.
  unfold pc in P. unfold run_stream in E. destruct (parse_tup_stream _ _ _ _) as [[]]; inversion E; subst; auto.
Qed.

Lemma from_str_doc g text o : from_str fs g text = Some (OOk o) -> exists its, r_doc its text.
Proof.
  unfold from_str, parse_obj_str. destruct (run_stream _ _ _ _) as [[]] eqn:E; try discriminate.
  intros _. eapply run_doc; eauto. constructor.
Qed.
Lemma from_file_doc g path o : from_file fs g path = Some (OOk o) ->
  exists i fe text its, fs_entry fs path = Some (i, fe) /\ fe_read fe = inl text /\ r_doc its text.
Proof.
  unfold from_file, parse_obj_file, open_file. destruct (fs_entry fs path) as [[i fe]|] eqn:E1; [|discriminate].
  destruct (fe_read fe) as [text|] eqn:E2; [|discriminate].
  destruct (run_stream _ _ _ _) as [[]] eqn:E; try discriminate.
  intros _. apply run_doc in E as [its E]; [|constructor]. exists i, fe, text, its. auto.
Qed.

(** Included files. *)
Definition kind_text (k : inc_ty) (text : str) : Prop :=
  match k with
  | IStr => True
  | IObj => exists its, r_doc its text
  | IArr | ITup => exists es, r_list es text
  end.
Lemma load_file_text k ty path sh v sh' : wfvals sh -> load_file fs k ty path sh = (Ok v, sh') ->
  exists i fe text, fs_entry fs path = Some (i, fe) /\ fe_read fe = inl text /\ kind_text ty text.
Proof.
  destruct k as [|k]; cbn [load_file]; [discriminate|]. unfold open_file. intros W.
  destruct (fs_entry fs path) as [[i fe]|] eqn:E1; [|discriminate].
  destruct (fe_read fe) as [text|] eqn:E2; [|discriminate].
  destruct ty; cbn [kind_text].
  - destruct (run_stream _ _ _ _) as [[]] eqn:E; try discriminate. apply run_doc in E; [eauto 7|exact W].
  - intros _. eauto 7.
  - destruct (run_stream _ _ _ _) as [[]] eqn:E; try discriminate. apply run_arr_list in E; [eauto 7|exact W].
  - destruct (run_stream _ _ _ _) as [[]] eqn:E; try discriminate. apply run_tup_list in E; [eauto 7|exact W].
Qed.
End Load.
