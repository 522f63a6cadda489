(** * Locality: a load that does not open a file does not depend on what is in it. *)
From Verif Require Export ParserEq.
From Coq Require String.
Import String.StringSyntax.
Open Scope N_scope.

(** The same files under the same names; only the contents of the files with a canonical path in [D] may differ. *)
Definition same_except (D : str -> Prop) (fs fs' : fsys) : Prop :=
  (forall p, fs_resolve fs p = fs_resolve fs' p) /\ (forall p, fs_open_err fs p = fs_open_err fs' p) /\
  Forall2 (fun e e' => fe_canon e = fe_canon e' /\ ((forall c, fe_canon e = Some c -> ~ D c) -> fe_read e = fe_read e'))
          (fs_files fs) (fs_files fs').
(** No file of [D] is opened in the events [log]. *)
Definition none_opened (D : str -> Prop) (log : list event) : Prop := forall c, D c -> ~ In (EOpen (Some c)) log.

(** [l'] is [l] with more events. *)
Definition ext (l l' : list event) : Prop := exists more, l' = more ++ l.
Lemma ext_refl l : ext l l. Proof. exists []. reflexivity. Qed.
Lemma ext_cons l l' e : ext l l' -> ext l (e :: l'). Proof. intros [m ->]. exists (e :: m). reflexivity. Qed.
Lemma ext_one l e : ext l (e :: l). Proof. exists [e]. reflexivity. Qed.
Lemma ext_trans a b c : ext a b -> ext b c -> ext a c.
Proof. intros [m ->] [m' ->]. exists (m' ++ m). apply app_assoc. Qed.
Lemma ext_incl a b : ext a b -> incl a b.
Proof. intros [m ->]. apply incl_appr, incl_refl. Qed.

(** The loading functions of Parser.v, with an arbitrary way [op] of opening files. *)
Section W.
Context `{U : Unicode}.
Variable op : str -> shared -> (str + perr) * shared.
Variable fs : fsys.
Fixpoint load_with (k : nat) (ty : inc_ty) (path : str) (sh : shared) {struct k} : outcome value * shared :=
  match k with
  | O => (NoFuel, sh)
  | S k' =>
      match op path sh with
      | (inr e, sh) => (Err e, sh)
      | (inl contents, sh) =>
          done_file fs path
          match ty with
          | IStr => (Ok (VStr contents), sh)
          | IObj => let '(o, sh) := run_stream (parse_obj_stream fs (load_with k') (stream_fuel contents)) (Some path) contents sh in (omap VObj o, sh)
          | IArr => let '(o, sh) := run_stream (parse_arr_stream fs (load_with k') (stream_fuel contents)) (Some path) contents sh in (omap VArr o, sh)
          | ITup => let '(o, sh) := run_stream (parse_tup_stream fs (load_with k') (stream_fuel contents)) (Some path) contents sh in (omap VTup o, sh)
          end
      end
  end.
Definition str_with (g : gstate) (contents : str) : outcome obj * shared :=
  run_stream (parse_obj_stream fs (load_with (inc_fuel fs)) (stream_fuel contents)) None contents (init_sh g).
Definition file_with (g : gstate) (path : str) : outcome obj * shared :=
  match op path (init_sh g) with
  | (inr e, sh) => (Err e, sh)
  | (inl contents, sh) =>
      run_stream (parse_obj_stream fs (load_with (inc_fuel fs)) (stream_fuel contents)) (Some path) contents sh
  end.
End W.
Lemma load_with_open `{U : Unicode} fs k : load_with (open_file fs) fs k = load_file fs k.
Proof. induction k as [|k IH]; [reflexivity|]. cbn [load_with load_file]. rewrite IH. reflexivity. Qed.
Lemma str_with_open `{U : Unicode} fs g t : str_with (open_file fs) fs g t = parse_obj_str fs g t.
Proof. unfold str_with. rewrite load_with_open. reflexivity. Qed.
Lemma file_with_open `{U : Unicode} fs g p : file_with (open_file fs) fs g p = parse_obj_file fs g p.
Proof. unfold file_with. rewrite load_with_open. reflexivity. Qed.

Section L.
Context `{U : Unicode}.
(** the logs after which two runs may go different ways *)
Variable Bad : list event -> Prop.
(** what is known of the events so far, from the start on *)
Variable P : list event -> Prop.
Hypothesis Pext : forall l l', ext l l' -> P l -> P l'.
Definition diverged (l1 l2 : list event) : Prop := exists b, Bad b /\ ext b l1 /\ ext b l2.
Lemma diverged_ext a b a' b' : diverged a b -> ext a a' -> ext b b' -> diverged a' b'.
Proof. intros (x & B & E1 & E2) F1 F2. exists x. split; [exact B|]. split; [exact (ext_trans _ _ _ E1 F1)|exact (ext_trans _ _ _ E2 F2)]. Qed.
(** From the events [l], the two results (with events [l1], [l2]) are the same, or an event of [Bad] is in both. *)
Definition same_or {X} (l l1 l2 : list event) (r1 r2 : X) : Prop := ext l l1 /\ ext l l2 /\ (r2 = r1 \/ diverged l1 l2).
Definition lgs {A} (r : outcome A * pstate) : list event := sh_log (s_sh (snd r)).
Definition lgh {A} (r : A * shared) : list event := sh_log (snd r).
(** [m'] does what [m] does, unless they diverge. *)
Definition loc {A} (m m' : M A) : Prop := forall s, P (sh_log (s_sh s)) -> same_or (sh_log (s_sh s)) (lgs (m s)) (lgs (m' s)) (m s) (m' s).
Lemma loc_bind {A B} (m m' : M A) (f f' : A -> M B) : loc m m' -> (forall a, loc (f a) (f' a)) -> loc (bind m f) (bind m' f').
Proof.
  intros Hm Hf s Ps. destruct (Hm s Ps) as (I1 & I2 & E1).
  assert (P1 : P (lgs (m s))) by exact (Pext _ _ I1 Ps). assert (P2 : P (lgs (m' s))) by exact (Pext _ _ I2 Ps).
  assert (F : ext (lgs (m s)) (lgs (bind m f s))).
  { unfold bind, lgs in *. destruct (m s) as [[a|e| |] s1] eqn:R; try apply ext_refl. exact (proj1 (Hf a s1 P1)). }
  assert (F' : ext (lgs (m' s)) (lgs (bind m' f' s))).
  { unfold bind, lgs in *. destruct (m' s) as [[a|e| |] s1] eqn:R; try apply ext_refl. exact (proj1 (proj2 (Hf a s1 P2))). }
  split; [exact (ext_trans _ _ _ I1 F)|]. split; [exact (ext_trans _ _ _ I2 F')|].
  destruct E1 as [E1|E1]; [|right; exact (diverged_ext _ _ _ _ E1 F F')].
  unfold bind. rewrite E1. unfold lgs in P1. destruct (m s) as [[a|e| |] s1]; auto. apply (Hf a s1 P1).
Qed.
(** programs that do not look at files *)
Lemma loc_same {A} (m : M A) : (forall s, ext (sh_log (s_sh s)) (lgs (m s))) -> loc m m.
Proof. intros H s _. split; [apply H|]. split; [apply H|auto]. Qed.
Ltac same := apply loc_same; let s := fresh "s" in intros s; apply ext_refl.
Lemma loc_scan {A} (f : str -> N -> N -> A * (str * N * N)) :
  loc (fun s => let '(x, (r, l, k)) := f (s_rest s) (s_line s) (s_col s) in (Ok x, set_stream s r l k))
      (fun s => let '(x, (r, l, k)) := f (s_rest s) (s_line s) (s_col s) in (Ok x, set_stream s r l k)).
Proof. apply loc_same. intros s. destruct (f _ _ _) as [x [[r l] k]]. apply ext_refl. Qed.
Lemma loc_next : loc next next.
Proof. apply loc_same. intros s. unfold next. destruct (s_rest s); [apply ext_refl|]. destruct (adv _ _ _). apply ext_refl. Qed.
Lemma loc_find : loc find_char find_char.
Proof. apply (loc_scan (fun r l k => find_char_l r l k false)). Qed.
Lemma loc_sentinel k : loc (sentinel k) (sentinel k).
Proof. apply loc_same. intros s. unfold sentinel. destruct (g_sent _ _); apply ext_refl. Qed.
Lemma loc_col : loc col_minus_1 col_minus_1.
Proof. apply loc_same. intros s. unfold col_minus_1. destruct (_ =? _); apply ext_refl. Qed.

Ltac k1 :=
  match goal with
  | |- loc (bind _ _) _ => apply loc_bind; [|intros]
  | |- loc (if ?b then _ else _) _ => destruct b
  | |- loc (match ?x with _ => _ end) _ => destruct x
  | |- loc (let _ := _ in _) _ => cbv zeta
  | |- loc (ret _) _ => same
  | |- loc (fail _) _ => same
  | |- loc (raise _) _ => same
  | |- loc panic _ => same
  | |- loc nofuel _ => same
  | |- loc next _ => apply loc_next
  | |- loc find_char _ => apply loc_find
  | |- loc gen_id _ => same
  | |- loc (sentinel _) _ => apply loc_sentinel
  | |- loc peek _ => same
  | |- loc getline _ => same
  | |- loc getcol _ => same
  | |- loc getpos _ => same
  | |- loc getfile _ => same
  | |- loc get_globals _ => same
  | |- loc (insert_global _ _) _ => same
  | |- loc get_sh _ => same
  | |- loc col_minus_1 _ => apply loc_col
  | |- loc (unwrap _) _ => unfold unwrap
  | |- loc (unwrap_o _) _ => unfold unwrap_o
  | |- loc (assert_ _) _ => unfold assert_
  | |- loc peek_unwrap _ => unfold peek_unwrap
  | |- loc next_unwrap _ => unfold next_unwrap
  | |- loc (new_obj _ _) _ => unfold new_obj
  | |- loc (new_arr _ _) _ => unfold new_arr
  | |- loc (new_tup _) _ => unfold new_tup
  | |- loc (check_value_end _) _ => unfold check_value_end
  | |- loc (unary_op_on_value _ _ _ _) _ => unfold unary_op_on_value
  | |- loc (binary_op_on_values _ _ _ _ _) _ => unfold binary_op_on_values
  | |- loc (include_token _ _ _) _ => unfold include_token
  | |- loc (lookup_variable _ _ _ _ _) _ => unfold lookup_variable
  | |- loc (index_by _ _ _ _) _ => unfold index_by
  | |- loc (parse_bigint _) _ => unfold parse_bigint
  end.
Ltac ks := repeat k1.
Lemma loc_str : loc parse_str parse_str.
Proof. unfold parse_str. ks. apply (loc_scan (fun r l k => scan_str r l k [] false)). Qed.
Lemma loc_numeric l k : loc (parse_numeric l k) (parse_numeric l k).
Proof. unfold parse_numeric. ks. apply (loc_scan (fun r l k => scan_numeric r l k [] [] false false)). Qed.
Lemma loc_field l k : loc (parse_field l k) (parse_field l k).
Proof. unfold parse_field. ks. apply (loc_scan (fun r l k => scan_field r l k a0 true)). Qed.
Lemma loc_binop v w op l k : loc (binary_op_on_values v w op l k) (binary_op_on_values v w op l k).
Proof. ks. Qed.
Lemma loc_low ops : forall v vals, loc (eval_low_ops v vals ops) (eval_low_ops v vals ops).
Proof.
  induction ops as [|op ops IH]; intros v vals; [destruct vals; same|]. destruct vals as [|[[v2 l2] k2] vals]; [same|].
  apply loc_bind; [apply loc_binop|]. intros a. apply IH.
Qed.

Section Files.
Variables fs fs' : fsys.
Variables li li' : inc_ty -> str -> shared -> outcome value * shared.
Hypothesis Hfile : forall p, is_file fs p = is_file fs' p.
Hypothesis Hcan : forall p, canon fs p = canon fs' p.
Hypothesis Hli : forall ty p sh, P (sh_log sh) -> same_or (sh_log sh) (lgh (li ty p sh)) (lgh (li' ty p sh)) (li ty p sh) (li' ty p sh).

Lemma loc_include ty p : loc (run_include li ty p) (run_include li' ty p).
Proof.
  intros s Ps. destruct (Hli ty p (s_sh s) Ps) as (I & I' & E). unfold run_include, lgs, lgh in *.
  destruct (li ty p (s_sh s)) as [o sh]. destruct (li' ty p (s_sh s)) as [o' sh']. cbn [snd s_sh set_sh] in *.
  split; [exact I|]. split; [exact I'|]. destruct E as [E|E]; [left; congruence|right; exact E].
Qed.
Lemma loc_upd_bind {B} (f : shared -> shared) (h h' : shared -> unit -> M B) : (forall sh, ext (sh_log sh) (sh_log (f sh))) ->
  (forall sh a, loc (h sh a) (h' sh a)) ->
  loc (bind get_sh (fun sh => bind (put_sh (f sh)) (h sh))) (bind get_sh (fun sh => bind (put_sh (f sh)) (h' sh))).
Proof.
  intros H K s Ps. destruct (K (s_sh s) tt (set_sh s (f (s_sh s))) (Pext _ _ (H _) Ps)) as (K1 & K2 & K3). cbn [s_sh set_sh] in K1, K2.
  unfold bind, get_sh, put_sh. split; [eapply ext_trans; [apply H|exact K1]|]. split; [eapply ext_trans; [apply H|exact K2]|exact K3].
Qed.
Lemma loc_opt_bind {B X} (o : option X) (f : X -> shared -> shared) (h h' : M B) : (forall x sh, ext (sh_log sh) (sh_log (f x sh))) ->
  loc h h' ->
  loc (bind get_sh (fun sh => bind (match o with Some x => put_sh (f x sh) | None => ret tt end) (fun _ => h)))
      (bind get_sh (fun sh => bind (match o with Some x => put_sh (f x sh) | None => ret tt end) (fun _ => h'))).
Proof.
  intros H K. destruct o as [x|].
  - apply (loc_upd_bind (f x) (fun _ _ => h) (fun _ _ => h')); auto.
  - apply loc_bind; [same|]. intros sh. apply loc_bind; [same|]. auto.
Qed.
Lemma loc_finish ty f l k : loc (finish_include fs li ty f l k) (finish_include fs' li' ty f l k).
Proof.
  unfold finish_include. apply loc_bind; [same|]. intros file. apply loc_bind; [ks|]. intros _. cbv zeta. rewrite <- Hfile.
  destruct (negb _); [same|]. rewrite <- Hcan. destruct (canon fs _) as [full|]; [|same].
  apply (loc_upd_bind (log_ev (ETry full)) (fun _ _ => _) (fun _ _ => _)); [intros sh; apply ext_one|]. intros _ _.
  apply loc_bind.
  - destruct file as [f0|]; [|same]. rewrite <- Hcan. destruct (canon fs f0) as [ff|]; [|same].
    apply (loc_upd_bind (fun sh => mksh (sh_vals sh) (if mem_str ff (sh_open sh) then sh_open sh else ff :: sh_open sh) (sh_log sh) (sh_g sh))
             (fun _ _ => _) (fun _ _ => _)); [intros sh; apply ext_refl|]. intros _ _. same.
  - intros storing. apply loc_bind; [same|]. intros sh. destruct (mem_str _ _); [same|]. apply loc_bind.
    + destruct (assoc _ _); [same|]. apply loc_bind; [apply loc_include|]. intros v.
      apply (loc_upd_bind (fun sh => mksh ((full, v) :: sh_vals sh) (sh_open sh) (sh_log sh) (sh_g sh)) (fun _ _ => _) (fun _ _ => _));
        [intros sh'; apply ext_refl|]. intros _ _. same.
    + intros v. apply (loc_opt_bind storing (fun f sh => mksh (sh_vals sh) (filter (fun x => negb (str_eqb x f)) (sh_open sh)) (sh_log sh) (sh_g sh)));
        [intros x sh'; apply ext_refl|].
      apply (loc_upd_bind (log_ev (EInc full ty v)) (fun _ _ => _) (fun _ _ => _)); [intros sh'; apply ext_one|]. intros _ _. same.
Qed.

Definition LT (n : nat) : Prop :=
  (forall a b c d e f, loc (parse_value fs li n a b c d e f) (parse_value fs' li' n a b c d e f)) /\
  (forall a b c d e, loc (parse_ops fs li n a b c d e) (parse_ops fs' li' n a b c d e)) /\
  (forall a b c d, loc (parse_unary_op fs li n a b c d) (parse_unary_op fs' li' n a b c d)) /\
  (forall a, loc (parse_obj fs li n a) (parse_obj fs' li' n a)) /\
  (forall a b c d, loc (pairs_loop fs li n a b c d) (pairs_loop fs' li' n a b c d)) /\
  (forall a b c d, loc (parse_field_value_pair fs li n a b c d) (parse_field_value_pair fs' li' n a b c d)) /\
  (forall a b, loc (parse_arr fs li n a b) (parse_arr fs' li' n a b)) /\
  (forall a b c d e, loc (arr_loop fs li n a b c d e) (arr_loop fs' li' n a b c d e)) /\
  (forall a b, loc (parse_tup fs li n a b) (parse_tup fs' li' n a b)) /\
  (forall a b c, loc (tup_loop fs li n a b c) (tup_loop fs' li' n a b c)) /\
  (forall a b c d e, loc (parse_variable fs li n a b c d e) (parse_variable fs' li' n a b c d e)) /\
  (forall a b, loc (parse_include fs li n a b) (parse_include fs' li' n a b)).
Lemma LT_all n : LT n.
Proof.
  induction n as [|n (H1&H2&H3&H4&H5&H6&H7&H8&H9&H10&H11&H12)].
  - unfold LT. repeat split; intros; try (left; reflexivity); apply ext_refl.
  -
    Ltac use12 H1 H2 H3 H4 H5 H6 H7 H8 H9 H10 H11 H12 :=
      repeat (first [k1|apply H1|apply H2|apply H3|apply H4|apply H5|apply H6|apply H7|apply H8|apply H9|apply H10|apply H11|apply H12
        |apply loc_str|apply loc_numeric|apply loc_field|apply loc_binop|apply loc_low|apply loc_finish]).
    unfold LT.
    split; [intros; rewrite !parse_value_S; use12 H1 H2 H3 H4 H5 H6 H7 H8 H9 H10 H11 H12|].
    split; [intros; rewrite !parse_ops_S; use12 H1 H2 H3 H4 H5 H6 H7 H8 H9 H10 H11 H12|].
    split; [intros; rewrite !parse_unary_op_S; use12 H1 H2 H3 H4 H5 H6 H7 H8 H9 H10 H11 H12|].
    split; [intros; rewrite !parse_obj_S; use12 H1 H2 H3 H4 H5 H6 H7 H8 H9 H10 H11 H12|].
    split; [intros; rewrite !pairs_loop_S; use12 H1 H2 H3 H4 H5 H6 H7 H8 H9 H10 H11 H12|].
    split; [intros; rewrite !parse_field_value_pair_S; use12 H1 H2 H3 H4 H5 H6 H7 H8 H9 H10 H11 H12|].
    split; [intros; rewrite !parse_arr_S; use12 H1 H2 H3 H4 H5 H6 H7 H8 H9 H10 H11 H12|].
    split; [intros; rewrite !arr_loop_S; use12 H1 H2 H3 H4 H5 H6 H7 H8 H9 H10 H11 H12|].
    split; [intros; rewrite !parse_tup_S; use12 H1 H2 H3 H4 H5 H6 H7 H8 H9 H10 H11 H12|].
    split; [intros; rewrite !tup_loop_S; use12 H1 H2 H3 H4 H5 H6 H7 H8 H9 H10 H11 H12|].
    split; [intros; rewrite !parse_variable_S; cbv zeta; use12 H1 H2 H3 H4 H5 H6 H7 H8 H9 H10 H11 H12|].
    { apply (loc_scan (fun r l k => scan_var r l k a1)). }
    intros; rewrite !parse_include_S; use12 H1 H2 H3 H4 H5 H6 H7 H8 H9 H10 H11 H12.
Qed.
Lemma loc_obj_stream n : loc (parse_obj_stream fs li n) (parse_obj_stream fs' li' n).
Proof. unfold parse_obj_stream. destruct (LT_all n) as (_&_&_&_&H5&_). ks. apply H5. Qed.
Lemma loc_arr_stream n : loc (parse_arr_stream fs li n) (parse_arr_stream fs' li' n).
Proof.
  unfold parse_arr_stream. ks. generalize (@nil value) TAny true.
  induction n as [|n IH]; intros vs t any; cbn [arr_file_loop]; ks; [apply (LT_all n)|apply IH].
Qed.
Lemma loc_tup_stream n : loc (parse_tup_stream fs li n) (parse_tup_stream fs' li' n).
Proof.
  unfold parse_tup_stream. ks. generalize (@nil value).
  induction n as [|n IH]; intros vs; cbn [tup_file_loop]; ks; [apply (LT_all n)|apply IH].
Qed.
Lemma loc_stream {A} (m m' : M A) file text sh : P (sh_log sh) -> loc m m' ->
  same_or (sh_log sh) (lgh (run_stream m file text sh)) (lgh (run_stream m' file text sh)) (run_stream m file text sh) (run_stream m' file text sh).
Proof.
  intros Ps H. unfold run_stream, lgh. destruct (H (mkst file text 1 1 [] sh) Ps) as (I & I' & E). unfold lgs in *.
  destruct (m _) as [o s]. destruct (m' _) as [o' s']. cbn [snd s_sh] in *.
  split; [exact I|]. split; [exact I'|]. destruct E as [E|E]; [left; congruence|right; exact E].
Qed.
End Files.

Section Load.
Variables fs fs' : fsys.
Variables op op' : str -> shared -> (str + perr) * shared.
Hypothesis Hfile : forall p, is_file fs p = is_file fs' p.
Hypothesis Hcan : forall p, canon fs p = canon fs' p.
Hypothesis Hop : forall p sh, P (sh_log sh) -> same_or (sh_log sh) (lgh (op p sh)) (lgh (op' p sh)) (op p sh) (op' p sh).
Lemma ext_done {A} f p (r : outcome A * shared) : ext (lgh r) (lgh (done_file f p r)).
Proof. unfold lgh, done_file. destruct r as [[a|e| |] h]; try apply ext_refl. apply ext_one. Qed.
Lemma loc_load_from k : forall ty p sh, P (sh_log sh) -> same_or (sh_log sh) (lgh (load_with op fs k ty p sh)) (lgh (load_with op' fs' k ty p sh))
  (load_with op fs k ty p sh) (load_with op' fs' k ty p sh).
Proof.
  induction k as [|k IH]; intros ty p sh Ps; [split; [apply ext_refl|]; split; [apply ext_refl|auto]|].
  set (F := fun fs op text h => done_file fs p
          match ty with
          | IStr => (Ok (VStr text), h)
          | IObj => let '(o, sh) := run_stream (parse_obj_stream fs (load_with op fs k) (stream_fuel text)) (Some p) text h in (omap VObj o, sh)
          | IArr => let '(o, sh) := run_stream (parse_arr_stream fs (load_with op fs k) (stream_fuel text)) (Some p) text h in (omap VArr o, sh)
          | ITup => let '(o, sh) := run_stream (parse_tup_stream fs (load_with op fs k) (stream_fuel text)) (Some p) text h in (omap VTup o, sh)
          end).
  assert (G : forall text h, P (sh_log h) -> same_or (sh_log h) (lgh (F fs op text h)) (lgh (F fs' op' text h)) (F fs op text h) (F fs' op' text h)).
  { intros text h Ph. unfold F.
    assert (Y : forall r r' : outcome value * shared, same_or (sh_log h) (lgh r) (lgh r') r r' ->
      same_or (sh_log h) (lgh (done_file fs p r)) (lgh (done_file fs' p r')) (done_file fs p r) (done_file fs' p r')).
    { intros r r' (I & I' & E). split; [eapply ext_trans; [exact I|apply ext_done]|]. split; [eapply ext_trans; [exact I'|apply ext_done]|].
      destruct E as [->|E]; [left; unfold done_file; rewrite Hcan; reflexivity|right; eapply diverged_ext; [exact E| |]; apply ext_done]. }
    assert (X : forall (A : Type) (m m' : M A) (w : A -> value), loc m m' ->
      same_or (sh_log h) (lgh (let '(o, sh) := run_stream m (Some p) text h in (omap w o, sh))) (lgh (let '(o, sh) := run_stream m' (Some p) text h in (omap w o, sh)))
       (let '(o, sh) := run_stream m (Some p) text h in (omap w o, sh)) (let '(o, sh) := run_stream m' (Some p) text h in (omap w o, sh))).
    { intros A m m' w H. destruct (loc_stream m m' (Some p) text h Ph H) as (I & I' & E). unfold lgh in *.
      destruct (run_stream m (Some p) text h) as [o h1]. destruct (run_stream m' (Some p) text h) as [o' h1']. cbn [snd] in *.
      split; [exact I|]. split; [exact I'|]. destruct E as [E|E]; [left; congruence|right; exact E]. }
    apply Y. destruct ty.
    - apply X. apply loc_obj_stream; auto.
    - split; [apply ext_refl|]. split; [apply ext_refl|auto].
    - apply X. apply loc_arr_stream; auto.
    - apply X. apply loc_tup_stream; auto. }
  cbn [load_with]. destruct (Hop p sh Ps) as (I1 & I1' & E1). unfold lgh in I1, I1', E1.
  assert (P1 : P (sh_log (snd (op p sh)))) by exact (Pext _ _ I1 Ps). assert (P1' : P (sh_log (snd (op' p sh)))) by exact (Pext _ _ I1' Ps).
  assert (R : forall fs0 op0, P (sh_log (snd (op0 p sh))) -> (forall text h, P (sh_log h) -> ext (sh_log h) (lgh (F fs0 op0 text h))) ->
    ext (sh_log (snd (op0 p sh))) (lgh match op0 p sh with (inl c, h) => F fs0 op0 c h | (inr e, h) => (Err e, h) end)).
  { intros fs0 op0 Q H. destruct (op0 p sh) as [[c|e] h]; [exact (H _ _ Q)|apply ext_refl]. }
  pose proof (R fs op P1 (fun t h q => proj1 (G t h q))) as R1. pose proof (R fs' op' P1' (fun t h q => proj1 (proj2 (G t h q)))) as R2.
  change (same_or (sh_log sh) (lgh match op p sh with (inl c, h) => F fs op c h | (inr e, h) => (Err e, h) end)
    (lgh match op' p sh with (inl c, h) => F fs' op' c h | (inr e, h) => (Err e, h) end)
    match op p sh with (inl c, h) => F fs op c h | (inr e, h) => (Err e, h) end
    match op' p sh with (inl c, h) => F fs' op' c h | (inr e, h) => (Err e, h) end).
  split; [exact (ext_trans _ _ _ I1 R1)|]. split; [exact (ext_trans _ _ _ I1' R2)|].
  destruct E1 as [E1|E1]; [|right; exact (diverged_ext _ _ _ _ E1 R1 R2)]. rewrite E1. clear - G P1. revert P1; destruct (op p sh) as [[c|e] h]; intros P1; [exact (proj2 (proj2 (G _ _ P1)))|auto].
Qed.
Hypothesis Hfuel : inc_fuel fs' = inc_fuel fs.
Lemma loc_str_from g text : P [] -> same_or [] (lgh (str_with op fs g text)) (lgh (str_with op' fs' g text)) (str_with op fs g text) (str_with op' fs' g text).
Proof. intros P0. unfold str_with. rewrite Hfuel. apply (loc_stream _ _ None text (init_sh g) P0). apply loc_obj_stream; auto. apply loc_load_from. Qed.
Lemma loc_file_from g path : P [] -> same_or [] (lgh (file_with op fs g path)) (lgh (file_with op' fs' g path)) (file_with op fs g path) (file_with op' fs' g path).
Proof.
  intros P0. set (F := fun fs op (text : str) h => run_stream (parse_obj_stream fs (load_with op fs (inc_fuel fs)) (stream_fuel text)) (Some path) text h).
  assert (G : forall text h, P (sh_log h) -> same_or (sh_log h) (lgh (F fs op text h)) (lgh (F fs' op' text h)) (F fs op text h) (F fs' op' text h)).
  { intros text h Ph. unfold F. rewrite Hfuel. apply loc_stream; [exact Ph|]. apply loc_obj_stream; auto. apply loc_load_from. }
  destruct (Hop path (init_sh g) P0) as (I1 & I1' & E1). unfold lgh in I1, I1', E1.
  assert (P1 : P (sh_log (snd (op path (init_sh g))))) by exact (Pext _ _ I1 P0). assert (P1' : P (sh_log (snd (op' path (init_sh g))))) by exact (Pext _ _ I1' P0).
  assert (R : forall fs0 op0, P (sh_log (snd (op0 path (init_sh g)))) -> (forall text h, P (sh_log h) -> ext (sh_log h) (lgh (F fs0 op0 text h))) ->
    ext (sh_log (snd (op0 path (init_sh g)))) (lgh match op0 path (init_sh g) with (inl c, h) => F fs0 op0 c h | (inr e, h) => (Err e, h) end)).
  { intros fs0 op0 Q H. destruct (op0 path (init_sh g)) as [[c|e] h]; [exact (H _ _ Q)|apply ext_refl]. }
  pose proof (R fs op P1 (fun t h q => proj1 (G t h q))) as R1. pose proof (R fs' op' P1' (fun t h q => proj1 (proj2 (G t h q)))) as R2.
  change (same_or [] (lgh match op path (init_sh g) with (inl c, h) => F fs op c h | (inr e, h) => (Err e, h) end)
    (lgh match op' path (init_sh g) with (inl c, h) => F fs' op' c h | (inr e, h) => (Err e, h) end)
    match op path (init_sh g) with (inl c, h) => F fs op c h | (inr e, h) => (Err e, h) end
    match op' path (init_sh g) with (inl c, h) => F fs' op' c h | (inr e, h) => (Err e, h) end).
  split; [exact (ext_trans _ _ _ I1 R1)|]. split; [exact (ext_trans _ _ _ I1' R2)|].
  destruct E1 as [E1|E1]; [|right; exact (diverged_ext _ _ _ _ E1 R1 R2)]. rewrite E1. clear - G P1. revert P1; destruct (op path (init_sh g)) as [[c|e] h]; intros P1; [exact (proj2 (proj2 (G _ _ P1)))|auto].
Qed.
End Load.
End L.

(** Nothing known of the events. *)
Section All.
Context `{U : Unicode}.
Variable Bad : list event -> Prop.
Variables fs fs' : fsys.
Variables op op' : str -> shared -> (str + perr) * shared.
Hypothesis Hfile : forall p, is_file fs p = is_file fs' p.
Hypothesis Hcan : forall p, canon fs p = canon fs' p.
Hypothesis Hop : forall p sh, same_or Bad (sh_log sh) (lgh (op p sh)) (lgh (op' p sh)) (op p sh) (op' p sh).
Lemma loc_load k : forall ty p sh, same_or Bad (sh_log sh) (lgh (load_with op fs k ty p sh)) (lgh (load_with op' fs' k ty p sh))
  (load_with op fs k ty p sh) (load_with op' fs' k ty p sh).
Proof. intros ty p sh. exact (loc_load_from Bad (fun _ => True) (fun _ _ _ _ => I) fs fs' op op' Hfile Hcan (fun p sh _ => Hop p sh) k ty p sh I). Qed.
Hypothesis Hfuel : inc_fuel fs' = inc_fuel fs.
Lemma loc_str_with g text : same_or Bad [] (lgh (str_with op fs g text)) (lgh (str_with op' fs' g text)) (str_with op fs g text) (str_with op' fs' g text).
Proof. exact (loc_str_from Bad (fun _ => True) (fun _ _ _ _ => I) fs fs' op op' Hfile Hcan (fun p sh _ => Hop p sh) Hfuel g text I). Qed.
Lemma loc_file_with g path : same_or Bad [] (lgh (file_with op fs g path)) (lgh (file_with op' fs' g path)) (file_with op fs g path) (file_with op' fs' g path).
Proof. exact (loc_file_from Bad (fun _ => True) (fun _ _ _ _ => I) fs fs' op op' Hfile Hcan (fun p sh _ => Hop p sh) Hfuel g path I). Qed.
End All.

(** ** Two file systems *)
Section Two.
Context `{U : Unicode}.
Variable D : str -> Prop.
Variables fs fs' : fsys.
Hypothesis S : same_except D fs fs'.
Lemma same_entry p : match fs_entry fs p, fs_entry fs' p with
  | Some (_, e), Some (_, e') => fe_canon e = fe_canon e' /\ ((forall c, fe_canon e = Some c -> ~ D c) -> fe_read e = fe_read e')
  | None, None => True
  | _, _ => False
  end.
Proof.
  destruct S as (S1 & _ & S3). unfold fs_entry. rewrite <- S1. destruct (path_parent p); [|exact I]. destruct (fs_resolve fs p) as [i|]; [|exact I].
  revert i. induction S3 as [|e e' l l' H F IH]; intros [|i]; cbn; auto. specialize (IH i). destruct (nth_error l i), (nth_error l' i); exact IH.
Qed.
Lemma same_is_file p : is_file fs p = is_file fs' p.
Proof. pose proof (same_entry p) as H. unfold is_file. destruct (fs_entry fs p) as [[]|], (fs_entry fs' p) as [[]|]; tauto. Qed.
Lemma same_canon p : canon fs p = canon fs' p.
Proof. pose proof (same_entry p) as H. unfold canon. destruct (fs_entry fs p) as [[]|], (fs_entry fs' p) as [[]|]; tauto. Qed.
Lemma same_fuel : inc_fuel fs' = inc_fuel fs.
Proof. unfold inc_fuel. destruct S as (_ & _ & F). f_equal. induction F; cbn; congruence. Qed.
(** the newest event is the opening of a file of [D] *)
Definition opened_one (b : list event) : Prop := exists c rest, ~ ~ D c /\ b = EOpen (Some c) :: rest.
Lemma none_diverged l1 l2 : none_opened D l1 -> ~ diverged opened_one l1 l2.
Proof. intros N (b & (c & rest & Dc & ->) & E & _). apply Dc. intros Dc'. apply (N c Dc'). apply (ext_incl _ _ E). left. reflexivity. Qed.
Lemma loc_open p sh : same_or opened_one (sh_log sh) (lgh (open_file fs p sh)) (lgh (open_file fs' p sh)) (open_file fs p sh) (open_file fs' p sh).
Proof.
  pose proof (same_entry p) as H. unfold open_file, lgh. destruct (fs_entry fs p) as [[i e]|], (fs_entry fs' p) as [[i' e']|]; try contradiction.
  - destruct H as [H1 H2]. rewrite <- H1.
    assert (L : forall r : str + str, sh_log (snd (match r with inl contents => (inl contents, log_ev (EOpen (fe_canon e)) sh)
       | inr msg => (@inr str perr (mkperr None (IoErrorKind msg)), log_ev (EOpen (fe_canon e)) sh) end)) = EOpen (fe_canon e) :: sh_log sh).
    { intros []; reflexivity. }
    rewrite !L. split; [apply ext_one|]. split; [apply ext_one|].
    destruct (fe_canon e) as [c|] eqn:C; [|left; rewrite H2; [reflexivity|discriminate]].
    assert (dec : {fe_read e = fe_read e'} + {fe_read e <> fe_read e'}) by (repeat decide equality).
    destruct dec as [Q|Q]; [left; rewrite Q; reflexivity|].
    right. exists (EOpen (Some c) :: sh_log sh). split; [|split; apply ext_refl].
    exists c, (sh_log sh). split; [|reflexivity]. intros Dc. apply Q, H2. intros c' [= <-]. exact Dc.
  - split; [apply ext_refl|]. split; [apply ext_refl|]. left. destruct S as (_ & S2 & _). rewrite S2. auto.
Qed.
Theorem loc_parse_str g text : none_opened D (sh_log (snd (parse_obj_str fs g text))) ->
  parse_obj_str fs' g text = parse_obj_str fs g text.
Proof.
  rewrite <- !str_with_open. intros N.
  destruct (loc_str_with _ fs fs' _ _ same_is_file same_canon loc_open same_fuel g text) as (_ & _ & [E|E]); [exact E|].
  exfalso. eapply none_diverged; [exact N|exact E].
Qed.
Theorem loc_parse_file g path : none_opened D (sh_log (snd (parse_obj_file fs g path))) ->
  parse_obj_file fs' g path = parse_obj_file fs g path.
Proof.
  rewrite <- !file_with_open. intros N.
  destruct (loc_file_with _ fs fs' _ _ same_is_file same_canon loc_open same_fuel g path) as (_ & _ & [E|E]); [exact E|].
  exfalso. eapply none_diverged; [exact N|exact E].
Qed.
End Two.
