(** * AmidProofs: a load amid changes against a load of what it saw (for C71). *)
From Verif Require Export Amid Locality ParserEq PropChanging.
From Coq Require String.
Import String.StringSyntax.
Open Scope N_scope.

Section L.
Context `{U : Unicode}.
Variable all : fsys.
Variable H : nat -> fsys.
Variable Bad : list event -> Prop.
Notation div := (diverged Bad).
Notation gone := (lost all H).
Lemma lost_err {A B} e : @lost all H A (Err e) -> @lost all H B (Err e).
Proof. intros G. inversion G; subst; [eapply lost_include; eauto|eapply lost_open; eauto]. Qed.
Lemma lost_panic {A B} : @lost all H A Panic -> @lost all H B Panic.
Proof. intros G. inversion G; subst. eapply lost_including; eauto. Qed.
Lemma lost_ok {A} (a : A) : ~ lost all H (Ok a). Proof. intros G; inversion G. Qed.
Lemma lost_nofuel {A} : ~ @lost all H A NoFuel. Proof. intros G; inversion G. Qed.
Lemma lost_omap {A B} (f : A -> B) o : gone o -> gone (omap f o).
Proof. destruct o; cbn; intros G; [destruct (lost_ok _ G)|exact (lost_err _ G)|exact (lost_panic G)|destruct (lost_nofuel G)]. Qed.
(** From the events [l], the two results (with events [l1], [l2]) are the same, or the first run has lost a file, or an event of [Bad] is in both. *)
Definition near {A X} (l l1 l2 : list event) (r1 r2 : outcome A * X) : Prop := ext l l1 /\ ext l l2 /\ (r2 = r1 \/ (gone (fst r1) /\ ext l1 l2) \/ div l1 l2).
Definition am {A} (m m' : M A) : Prop := forall s, near (sh_log (s_sh s)) (lgs (m s)) (lgs (m' s)) (m s) (m' s).
Lemma am_bind {A B} (m m' : M A) (f f' : A -> M B) : am m m' -> (forall a, am (f a) (f' a)) -> am (bind m f) (bind m' f').
Proof.
  intros Hm Hf s. destruct (Hm s) as (I1 & I2 & E1).
  assert (F : ext (lgs (m s)) (lgs (bind m f s))).
  { unfold bind. destruct (m s) as [[a|e| |] s1] eqn:R; try apply ext_refl. exact (proj1 (Hf a s1)). }
  assert (F' : ext (lgs (m' s)) (lgs (bind m' f' s))).
  { unfold bind. destruct (m' s) as [[a|e| |] s1] eqn:R; try apply ext_refl. exact (proj1 (proj2 (Hf a s1))). }
  split; [exact (ext_trans _ _ _ I1 F)|]. split; [exact (ext_trans _ _ _ I2 F')|].
  destruct E1 as [E1|[E1|E1]]; [| |right; right; exact (diverged_ext _ _ _ _ _ E1 F F')].
  - unfold bind. rewrite E1. destruct (m s) as [[a|e| |] s1]; auto. apply (Hf a s1).
  - right. left. destruct E1 as [E1 X]. split.
    + unfold bind. destruct (m s) as [[a|e| |] s1]; cbn [fst] in *;
        [destruct (lost_ok _ E1)|exact (lost_err _ E1)|exact (lost_panic E1)|destruct (lost_nofuel E1)].
    + eapply ext_trans; [|exact F']. eapply ext_trans; [|exact X]. unfold bind.
      destruct (m s) as [[a|e| |] s1]; cbn [fst] in *; [destruct (lost_ok _ E1)| | |]; apply ext_refl.
Qed.
Lemma am_loc {A} (m m' : M A) : (forall s, same_or Bad (sh_log (s_sh s)) (lgs (m s)) (lgs (m' s)) (m s) (m' s)) -> am m m'.
Proof. intros G s. destruct (G s) as (I1 & I2 & [E|E]); split; auto. Qed.
Lemma am_same {A} (m : M A) : (forall s, ext (sh_log (s_sh s)) (lgs (m s))) -> am m m.
Proof. intros G s. split; [apply G|]. split; [apply G|auto]. Qed.
Ltac same := apply am_same; let s := fresh "s" in intros s; apply ext_refl.
Lemma am_scan {A} (f : str -> N -> N -> A * (str * N * N)) :
  am (fun s => let '(x, (r, l, k)) := f (s_rest s) (s_line s) (s_col s) in (Ok x, set_stream s r l k))
      (fun s => let '(x, (r, l, k)) := f (s_rest s) (s_line s) (s_col s) in (Ok x, set_stream s r l k)).
Proof. apply am_same. intros s. destruct (f _ _ _) as [x [[r l] k]]. apply ext_refl. Qed.
Lemma am_next : am next next.
Proof. apply am_same. intros s. unfold next. destruct (s_rest s); [apply ext_refl|]. destruct (adv _ _ _). apply ext_refl. Qed.
Lemma am_find : am find_char find_char.
Proof. apply (am_scan (fun r l k => find_char_l r l k false)). Qed.
Lemma am_sentinel k : am (sentinel k) (sentinel k).
Proof. apply am_same. intros s. unfold sentinel. destruct (g_sent _ _); apply ext_refl. Qed.
Lemma am_col : am col_minus_1 col_minus_1.
Proof. apply am_same. intros s. unfold col_minus_1. destruct (_ =? _); apply ext_refl. Qed.

Ltac k1 :=
  match goal with
  | |- am (bind _ _) _ => apply am_bind; [|intros]
  | |- am (if ?b then _ else _) _ => destruct b
  | |- am (match ?x with _ => _ end) _ => destruct x
  | |- am (let _ := _ in _) _ => cbv zeta
  | |- am (ret _) _ => same
  | |- am (fail _) _ => same
  | |- am (raise _) _ => same
  | |- am panic _ => same
  | |- am nofuel _ => same
  | |- am next _ => apply am_next
  | |- am find_char _ => apply am_find
  | |- am gen_id _ => same
  | |- am (sentinel _) _ => apply am_sentinel
  | |- am peek _ => same
  | |- am getline _ => same
  | |- am getcol _ => same
  | |- am getpos _ => same
  | |- am getfile _ => same
  | |- am get_globals _ => same
  | |- am (insert_global _ _) _ => same
  | |- am get_sh _ => same
  | |- am col_minus_1 _ => apply am_col
  | |- am (unwrap _) _ => unfold unwrap
  | |- am (unwrap_o _) _ => unfold unwrap_o
  | |- am (assert_ _) _ => unfold assert_
  | |- am peek_unwrap _ => unfold peek_unwrap
  | |- am next_unwrap _ => unfold next_unwrap
  | |- am (new_obj _ _) _ => unfold new_obj
  | |- am (new_arr _ _) _ => unfold new_arr
  | |- am (new_tup _) _ => unfold new_tup
  | |- am (check_value_end _) _ => unfold check_value_end
  | |- am (unary_op_on_value _ _ _ _) _ => unfold unary_op_on_value
  | |- am (binary_op_on_values _ _ _ _ _) _ => unfold binary_op_on_values
  | |- am (include_token _ _ _) _ => unfold include_token
  | |- am (lookup_variable _ _ _ _ _) _ => unfold lookup_variable
  | |- am (index_by _ _ _ _) _ => unfold index_by
  | |- am (parse_bigint _) _ => unfold parse_bigint
  end.
Ltac ks := repeat k1.
Lemma am_str : am parse_str parse_str.
Proof. unfold parse_str. ks. apply (am_scan (fun r l k => scan_str r l k [] false)). Qed.
Lemma am_numeric l k : am (parse_numeric l k) (parse_numeric l k).
Proof. unfold parse_numeric. ks. apply (am_scan (fun r l k => scan_numeric r l k [] [] false false)). Qed.
Lemma am_field l k : am (parse_field l k) (parse_field l k).
Proof. unfold parse_field. ks. apply (am_scan (fun r l k => scan_field r l k a0 true)). Qed.
Lemma am_binop v w op l k : am (binary_op_on_values v w op l k) (binary_op_on_values v w op l k).
Proof. ks. Qed.
Lemma am_low ops : forall v vals, am (eval_low_ops v vals ops) (eval_low_ops v vals ops).
Proof.
  induction ops as [|op ops IH]; intros v vals; [destruct vals; same|]. destruct vals as [|[[v2 l2] k2] vals]; [same|].
  apply am_bind; [apply am_binop|]. intros a. apply IH.
Qed.


Section Files.
Variable fin : inc_ty -> str -> N -> N -> M value.
Variable fs : fsys.
Variable li : inc_ty -> str -> shared -> outcome value * shared.
Hypothesis Hfin : forall ty f l k, am (fin ty f l k) (finish_include fs li ty f l k).
Definition LT (n : nat) : Prop :=
  (forall a b c d e f, am (am_parse_value fin n a b c d e f) (parse_value fs li n a b c d e f)) /\
  (forall a b c d e, am (am_parse_ops fin n a b c d e) (parse_ops fs li n a b c d e)) /\
  (forall a b c d, am (am_parse_unary_op fin n a b c d) (parse_unary_op fs li n a b c d)) /\
  (forall a, am (am_parse_obj fin n a) (parse_obj fs li n a)) /\
  (forall a b c d, am (am_pairs_loop fin n a b c d) (pairs_loop fs li n a b c d)) /\
  (forall a b c d, am (am_parse_field_value_pair fin n a b c d) (parse_field_value_pair fs li n a b c d)) /\
  (forall a b, am (am_parse_arr fin n a b) (parse_arr fs li n a b)) /\
  (forall a b c d e, am (am_arr_loop fin n a b c d e) (arr_loop fs li n a b c d e)) /\
  (forall a b, am (am_parse_tup fin n a b) (parse_tup fs li n a b)) /\
  (forall a b c, am (am_tup_loop fin n a b c) (tup_loop fs li n a b c)) /\
  (forall a b c d e, am (am_parse_variable fin n a b c d e) (parse_variable fs li n a b c d e)) /\
  (forall a b, am (am_parse_include fin n a b) (parse_include fs li n a b)).
Lemma LT_all n : LT n.
Proof.
  induction n as [|n (H1&H2&H3&H4&H5&H6&H7&H8&H9&H10&H11&H12)].
  - unfold LT. repeat split; intros; try (left; reflexivity); apply ext_refl.
  -
    Ltac use12 H1 H2 H3 H4 H5 H6 H7 H8 H9 H10 H11 H12 :=
      repeat (first [k1|apply H1|apply H2|apply H3|apply H4|apply H5|apply H6|apply H7|apply H8|apply H9|apply H10|apply H11|apply H12
        |apply am_str|apply am_numeric|apply am_field|apply am_binop|apply am_low|apply Hfin]).
    unfold LT.
    split; [intros; rewrite am_parse_value_S, parse_value_S; use12 H1 H2 H3 H4 H5 H6 H7 H8 H9 H10 H11 H12|].
    split; [intros; rewrite am_parse_ops_S, parse_ops_S; use12 H1 H2 H3 H4 H5 H6 H7 H8 H9 H10 H11 H12|].
    split; [intros; rewrite am_parse_unary_op_S, parse_unary_op_S; use12 H1 H2 H3 H4 H5 H6 H7 H8 H9 H10 H11 H12|].
    split; [intros; rewrite am_parse_obj_S, parse_obj_S; use12 H1 H2 H3 H4 H5 H6 H7 H8 H9 H10 H11 H12|].
    split; [intros; rewrite am_pairs_loop_S, pairs_loop_S; use12 H1 H2 H3 H4 H5 H6 H7 H8 H9 H10 H11 H12|].
    split; [intros; rewrite am_parse_field_value_pair_S, parse_field_value_pair_S; use12 H1 H2 H3 H4 H5 H6 H7 H8 H9 H10 H11 H12|].
    split; [intros; rewrite am_parse_arr_S, parse_arr_S; use12 H1 H2 H3 H4 H5 H6 H7 H8 H9 H10 H11 H12|].
    split; [intros; rewrite am_arr_loop_S, arr_loop_S; use12 H1 H2 H3 H4 H5 H6 H7 H8 H9 H10 H11 H12|].
    split; [intros; rewrite am_parse_tup_S, parse_tup_S; use12 H1 H2 H3 H4 H5 H6 H7 H8 H9 H10 H11 H12|].
    split; [intros; rewrite am_tup_loop_S, tup_loop_S; use12 H1 H2 H3 H4 H5 H6 H7 H8 H9 H10 H11 H12|].
    split; [intros; rewrite am_parse_variable_S, parse_variable_S; cbv zeta; use12 H1 H2 H3 H4 H5 H6 H7 H8 H9 H10 H11 H12|].
    { apply (am_scan (fun r l k => scan_var r l k a1)). }
    intros; rewrite am_parse_include_S, parse_include_S; use12 H1 H2 H3 H4 H5 H6 H7 H8 H9 H10 H11 H12.
Qed.
Lemma am_obj_stream n : am (am_parse_obj_stream fin n) (parse_obj_stream fs li n).
Proof. unfold am_parse_obj_stream, parse_obj_stream. destruct (LT_all n) as (_&_&_&_&H5&_). ks. apply H5. Qed.
Lemma am_arr_stream n : am (am_parse_arr_stream fin n) (parse_arr_stream fs li n).
Proof.
  unfold parse_arr_stream, am_parse_arr_stream. ks. generalize (@nil value) TAny true.
  induction n as [|n IH]; intros vs t any; cbn [arr_file_loop am_arr_file_loop]; ks; [apply (LT_all n)|apply IH].
Qed.
Lemma am_tup_stream n : am (am_parse_tup_stream fin n) (parse_tup_stream fs li n).
Proof.
  unfold parse_tup_stream, am_parse_tup_stream. ks. generalize (@nil value).
  induction n as [|n IH]; intros vs; cbn [tup_file_loop am_tup_file_loop]; ks; [apply (LT_all n)|apply IH].
Qed.

End Files.

Lemma am_stream {A} (m m' : M A) file text sh : am m m' ->
  near (sh_log sh) (lgh (run_stream m file text sh)) (lgh (run_stream m' file text sh)) (run_stream m file text sh) (run_stream m' file text sh).
Proof.
  intros G. unfold run_stream, lgh. destruct (G (mkst file text 1 1 [] sh)) as (I & I' & E). unfold lgs in *.
  destruct (m _) as [o s]. destruct (m' _) as [o' s']. cbn [snd fst s_sh] in *.
  split; [exact I|]. split; [exact I'|]. destruct E as [E|E]; [left; congruence|right; exact E].
Qed.

Section Include.
Variable fs : fsys.
Hypothesis S : same_names all fs.
Hypothesis C : come_and_go all H.
Lemma there t p : is_file (H t) p = true -> is_file fs p = true.
Proof.
  unfold is_file. destruct (fs_entry (H t) p) as [[i e]|] eqn:E; [|discriminate]. intros _.
  destruct (proj1 (C t) p i e E) as (e' & E' & _). pose proof (names_entry all fs p S) as Q. rewrite E' in Q.
  destruct (fs_entry fs p); [reflexivity|contradiction].
Qed.
Lemma there_all t p : is_file (H t) p = true -> is_file all p = true.
Proof.
  unfold is_file. destruct (fs_entry (H t) p) as [[i e]|] eqn:E; [|discriminate]. intros _.
  destruct (proj1 (C t) p i e E) as (e' & -> & _). reflexivity.
Qed.
Lemma there_canon t p : is_file (H t) p = true -> canon (H t) p = canon fs p.
Proof.
  unfold is_file, canon. destruct (fs_entry (H t) p) as [[i e]|] eqn:E; [|discriminate]. intros _.
  destruct (proj1 (C t) p i e E) as (e' & E' & <-). pose proof (names_entry all fs p S) as Q. rewrite E' in Q.
  destruct (fs_entry fs p) as [[j x]|]; [apply Q|contradiction].
Qed.
Lemma not_file_canon f p : is_file f p = false -> canon f p = None.
Proof. unfold is_file, canon. destruct (fs_entry f p); [discriminate|reflexivity]. Qed.
Lemma all_file p : is_file fs p = is_file all p.
Proof. symmetry. apply names_is_file, S. Qed.

Variables li li' : inc_ty -> str -> shared -> outcome value * shared.
Hypothesis Hli : forall ty p sh, near (sh_log sh) (lgh (li ty p sh)) (lgh (li' ty p sh)) (li ty p sh) (li' ty p sh).
Lemma am_include ty p : am (run_include li ty p) (run_include li' ty p).
Proof.
  intros s. destruct (Hli ty p (s_sh s)) as (I & I' & E). unfold run_include, lgs, lgh in *.
  destruct (li ty p (s_sh s)) as [o sh]. destruct (li' ty p (s_sh s)) as [o' sh']. cbn [fst snd s_sh set_sh] in *.
  split; [exact I|]. split; [exact I'|]. destruct E as [E|E]; [left; congruence|right; exact E].
Qed.
Lemma am_upd_bind {B} (f : shared -> shared) (h h' : shared -> unit -> M B) : (forall sh, ext (sh_log sh) (sh_log (f sh))) ->
  (forall sh a, am (h sh a) (h' sh a)) ->
  am (bind get_sh (fun sh => bind (put_sh (f sh)) (h sh))) (bind get_sh (fun sh => bind (put_sh (f sh)) (h' sh))).
Proof.
  intros G K s. destruct (K (s_sh s) tt (set_sh s (f (s_sh s)))) as (K1 & K2 & K3). cbn [s_sh set_sh] in K1, K2.
  unfold bind, get_sh, put_sh. split; [eapply ext_trans; [apply G|exact K1]|]. split; [eapply ext_trans; [apply G|exact K2]|exact K3].
Qed.
Lemma am_opt_bind {B X} (o : option X) (f : X -> shared -> shared) (h h' : M B) : (forall x sh, ext (sh_log sh) (sh_log (f x sh))) ->
  am h h' ->
  am (bind get_sh (fun sh => bind (match o with Some x => put_sh (f x sh) | None => ret tt end) (fun _ => h)))
      (bind get_sh (fun sh => bind (match o with Some x => put_sh (f x sh) | None => ret tt end) (fun _ => h'))).
Proof.
  intros G K. destruct o as [x|].
  - apply (am_upd_bind (f x) (fun _ _ => h) (fun _ _ => h')); auto.
  - apply am_bind; [same|]. intros sh. apply am_bind; [same|]. auto.
Qed.

(** what [finish_include] logs extends the log *)
Lemma finish_ext ty f l k s : ext (sh_log (s_sh s)) (lgs (finish_include fs li' ty f l k s)).
Proof.
  assert (G : forall ty p sh, same_or (fun _ => False) (sh_log sh) (lgh (li' ty p sh)) (lgh (li' ty p sh)) (li' ty p sh) (li' ty p sh)).
  { intros ty' p sh. destruct (Hli ty' p sh) as (_ & I & _). split; [exact I|]. split; [exact I|auto]. }
  exact (proj1 (loc_finish (fun _ => False) (fun _ => True) (fun _ _ _ _ => I) fs fs li' li' (fun _ => eq_refl) (fun _ => eq_refl) (fun ty p sh _ => G ty p sh) ty f l k s I)).
Qed.

(** [finish_include] after the two questions about the included file *)
Definition tail (can : shared -> str -> option str) (li : inc_ty -> str -> shared -> outcome value * shared)
  (ty : inc_ty) (file : option str) (full path f : str) (line col : N) : M value :=
  let* sh := get_sh in
  let* _ := put_sh (log_ev (ETry full) sh) in
  let* storing :=
    (match file with
     | Some f =>
         let* sh := get_sh in
         match can sh f with
         | None => panic
         | Some ff =>
             let* sh := get_sh in
             let* _ := put_sh (mksh (sh_vals sh) (if mem_str ff (sh_open sh) then sh_open sh else ff :: sh_open sh) (sh_log sh) (sh_g sh)) in
             ret (Some ff)
         end
     | None => ret None
     end) in
  let* sh := get_sh in
  if mem_str full (sh_open sh) then fail (CyclicInclude f line col)
  else
    let* value :=
      (match assoc full (sh_vals sh) with
       | Some v => ret v
       | None =>
           let* v := run_include li ty path in
           let* sh := get_sh in
           let* _ := put_sh (mksh ((full, v) :: sh_vals sh) (sh_open sh) (sh_log sh) (sh_g sh)) in
           ret v
       end) in
    let* sh := get_sh in
    let* _ := (match storing with
       | Some f => put_sh (mksh (sh_vals sh) (filter (fun x => negb (str_eqb x f)) (sh_open sh)) (sh_log sh) (sh_g sh))
       | None => ret tt
       end) in
    let* sh := get_sh in
    let* _ := put_sh (log_ev (EInc full ty value) sh) in
    ret value.
Lemma am_tail ty file full path f l k :
  am (tail (fun sh => canon (now H 2 sh)) li ty file full path f l k) (tail (fun _ => canon fs) li' ty file full path f l k).
Proof.
  unfold tail.
  apply (am_upd_bind (log_ev (ETry full)) (fun _ _ => _) (fun _ _ => _)); [intros sh; apply ext_one|]. intros _ _.
  apply am_bind.
  - destruct file as [f0|]; [|same].
    assert (G : forall sh, am (match canon (now H 2 sh) f0 with
         | None => panic
         | Some ff =>
             let* sh := get_sh in
             let* _ := put_sh (mksh (sh_vals sh) (if mem_str ff (sh_open sh) then sh_open sh else ff :: sh_open sh) (sh_log sh) (sh_g sh)) in
             ret (Some ff)
         end) (match canon fs f0 with
         | None => panic
         | Some ff =>
             let* sh := get_sh in
             let* _ := put_sh (mksh (sh_vals sh) (if mem_str ff (sh_open sh) then sh_open sh else ff :: sh_open sh) (sh_log sh) (sh_g sh)) in
             ret (Some ff)
         end)).
    { intros sh. unfold now. set (t := (_ + 2)%nat). destruct (is_file (H t) f0) eqn:F.
      - rewrite (there_canon t f0 F). destruct (canon fs f0) as [ff|]; [|same].
        apply (am_upd_bind (fun sh => mksh (sh_vals sh) (if mem_str ff (sh_open sh) then sh_open sh else ff :: sh_open sh) (sh_log sh) (sh_g sh))
             (fun _ _ => _) (fun _ _ => _)); [intros sh0; apply ext_refl|]. intros _ _. same.
      - rewrite (not_file_canon _ _ F). destruct (canon fs f0) as [ff|] eqn:Cf; [|same].
        intros s. split; [apply ext_refl|]. split; [apply ext_refl|]. right. left. split; [|apply ext_refl]. apply (lost_including _ _ t f0); [|exact F].
        rewrite <- all_file. destruct (is_file fs f0) eqn:K; [reflexivity|]. rewrite (not_file_canon _ _ K) in Cf. discriminate. }
    intros s. exact (G (s_sh s) s).
  - intros storing. apply am_bind; [same|]. intros sh. destruct (mem_str _ _); [same|]. apply am_bind.
    + destruct (assoc _ _); [same|]. apply am_bind; [apply am_include|]. intros v.
      apply (am_upd_bind (fun sh => mksh ((full, v) :: sh_vals sh) (sh_open sh) (sh_log sh) (sh_g sh)) (fun _ _ => _) (fun _ _ => _));
        [intros sh'; apply ext_refl|]. intros _ _. same.
    + intros v. apply (am_opt_bind storing (fun f sh => mksh (sh_vals sh) (filter (fun x => negb (str_eqb x f)) (sh_open sh)) (sh_log sh) (sh_g sh)));
        [intros x sh'; apply ext_refl|].
      apply (am_upd_bind (log_ev (EInc full ty v)) (fun _ _ => _) (fun _ _ => _)); [intros sh'; apply ext_one|]. intros _ _. same.
Qed.
Lemma am_finish ty f l k : am (finish_amid H li ty f l k) (finish_include fs li' ty f l k).
Proof.
  intros s. pose proof (finish_ext ty f l k s) as Ex.
  destruct (has_parent (s_file s)) eqn:P.
  2:{ split; [|split; [exact Ex|left]].
      - unfold finish_amid, bind, getfile, assert_. rewrite P. apply ext_refl.
      - unfold finish_amid, finish_include, bind, getfile, assert_. rewrite P. reflexivity. }
  set (path := target (s_file s) f).
  assert (A : forall t, is_file fs path = true -> is_file (H t) path = false ->
     finish_amid H li ty f l k s = (Err (mkperr (s_file s) (InvalidIncludePath f l k)), s) ->
     near (sh_log (s_sh s)) (lgs (finish_amid H li ty f l k s)) (lgs (finish_include fs li' ty f l k s)) (finish_amid H li ty f l k s) (finish_include fs li' ty f l k s)).
  { intros t F1 F2 E. split; [rewrite E; apply ext_refl|]. split; [exact Ex|]. right. left. rewrite E. split; [|exact Ex]. cbn [fst].
    apply (lost_include _ _ t); [|exact F2]. fold path. rewrite <- all_file. exact F1. }
  destruct (is_file (now H 0 (s_sh s)) path) eqn:F0.
  2:{ assert (E : finish_amid H li ty f l k s = (Err (mkperr (s_file s) (InvalidIncludePath f l k)), s)).
      { unfold finish_amid, bind, getfile, assert_, get_sh. rewrite P. cbn [ret]. change (match s_file s with Some f1 => beside f1 f | None => f end) with path. rewrite F0. reflexivity. }
      destruct (is_file fs path) eqn:Fp; [exact (A _ eq_refl F0 E)|].
      rewrite E. split; [apply ext_refl|]. split; [exact Ex|]. left.
      unfold finish_include, bind, getfile, assert_, get_sh. rewrite P. cbn [ret]. change (match s_file s with Some f1 => beside f1 f | None => f end) with path. rewrite Fp. reflexivity. }
  pose proof (there _ _ F0) as Fp.
  destruct (is_file (now H 1 (s_sh s)) path) eqn:F1.
  2:{ apply (A _ Fp F1).
      unfold finish_amid, bind, getfile, assert_, get_sh. rewrite P. cbn [ret]. change (match s_file s with Some f1 => beside f1 f | None => f end) with path. rewrite F0. cbn [negb].
      rewrite (not_file_canon _ _ F1). reflexivity. }
  pose proof (there_canon _ _ F1) as Cp. fold (now H 1 (s_sh s)) in Cp.
  destruct (canon fs path) as [full|] eqn:Cf.
  - assert (E1 : finish_amid H li ty f l k s = tail (fun sh => canon (now H 2 sh)) li ty (s_file s) full path f l k s).
    { unfold finish_amid. unfold bind at 1, getfile at 1. unfold bind at 1, assert_ at 1. rewrite P. cbn [ret]. cbv zeta.
      change (match s_file s with Some f1 => beside f1 f | None => f end) with path. unfold bind at 1, get_sh at 1. rewrite F0. cbn [negb]. rewrite Cp. reflexivity. }
    assert (E2 : finish_include fs li' ty f l k s = tail (fun _ => canon fs) li' ty (s_file s) full path f l k s).
    { unfold finish_include. unfold bind at 1, getfile at 1. unfold bind at 1, assert_ at 1. rewrite P. cbn [ret]. cbv zeta.
      change (match s_file s with Some f1 => beside f1 f | None => f end) with path. rewrite Fp. cbn [negb]. rewrite Cf. destruct (s_file s); reflexivity. }
    rewrite E1, E2. apply am_tail.
  - split; [|split; [exact Ex|left]].
    + unfold finish_amid, bind, getfile, assert_, get_sh. rewrite P. cbn [ret]. change (match s_file s with Some f1 => beside f1 f | None => f end) with path. rewrite F0. cbn [negb]. rewrite Cp. apply ext_refl.
    + unfold finish_amid, finish_include, bind, getfile, assert_, get_sh. rewrite P. cbn [ret]. change (match s_file s with Some f1 => beside f1 f | None => f end) with path. rewrite F0, Fp. cbn [negb]. rewrite Cp, Cf. reflexivity.
Qed.
End Include.
End L.

(** the newest event is the opening of a file whose contents are not those in [fs] *)
Definition old (H : nat -> fsys) (fs : fsys) (b : list event) : Prop :=
  exists p rest, b = EOpen (canon fs p) :: rest /\ is_file (H (tick rest + 3)%nat) p = true /\ text_at fs p <> text_at (H (tick rest + 3)%nat) p.
Section Load.
Context `{U : Unicode}.
Variables all fs : fsys.
Variable H : nat -> fsys.
Hypothesis S : same_names all fs.
Hypothesis C : come_and_go all H.
Notation near := (near all H (old H fs)).
Lemma amid_open p sh : ext (sh_log sh) (lgh (open_amid H p sh)) /\ ext (sh_log sh) (lgh (open_file fs p sh)) /\
  (open_file fs p sh = open_amid H p sh \/ (exists e, open_amid H p sh = (inr e, sh) /\ forall A, @lost all H A (Err e)) \/
   diverged (old H fs) (lgh (open_amid H p sh)) (lgh (open_file fs p sh))).
Proof.
  unfold open_amid, now. set (t := (_ + 3)%nat).
  assert (L : forall (e : fentry) (r : str + str), sh_log (snd (match r with inl contents => (inl contents, log_ev (EOpen (fe_canon e)) sh)
       | inr msg => (@inr str perr (mkperr None (IoErrorKind msg)), log_ev (EOpen (fe_canon e)) sh) end)) = EOpen (fe_canon e) :: sh_log sh).
  { intros e []; reflexivity. }
  assert (X : forall f, ext (sh_log sh) (lgh (open_file f p sh))).
  { intros f. unfold lgh, open_file. destruct (fs_entry f p) as [[j x]|]; [rewrite L; apply ext_one|apply ext_refl]. }
  split; [apply X|]. split; [apply X|].
  destruct (fs_entry (H t) p) as [[i e]|] eqn:E1.
  - destruct (proj1 (C t) p i e E1) as (e0 & E0 & K0). pose proof (names_entry all fs p S) as Q. rewrite E0 in Q.
    destruct (fs_entry fs p) as [[i' e']|] eqn:E2; [|contradiction]. destruct Q as [<- Q].
    unfold lgh, open_file. rewrite E1, E2. assert (K : fe_canon e = fe_canon e') by congruence. rewrite !L. rewrite K.
    assert (dec : {fe_read e = fe_read e'} + {fe_read e <> fe_read e'}) by (repeat decide equality).
    destruct dec as [R|R]; [left; rewrite R; reflexivity|].
    right. right. exists (EOpen (fe_canon e') :: sh_log sh). split; [|split; apply ext_refl].
    exists p, (sh_log sh). unfold canon, is_file, text_at. fold t. rewrite E2, E1. cbn. split; [reflexivity|]. split; [reflexivity|]. congruence.
  - unfold open_file at 2. unfold open_file at 2. unfold open_file at 2. rewrite E1. destruct (is_file all p) eqn:F.
    + right. left. eexists. split; [reflexivity|]. intros A. destruct (C t) as [_ G]. rewrite G. apply (lost_open _ _ t p); [exact F|].
      unfold is_file. rewrite E1. reflexivity.
    + left. rewrite (names_is_file _ _ S) in F. unfold is_file in F. unfold open_file. destruct (fs_entry fs p); [discriminate|].
      destruct (C t) as [_ ->]. destruct S as (_ & -> & _). reflexivity.
Qed.
Lemma ext_done_amid {A} o (r : outcome A * shared) : ext (lgh r) (lgh (done_amid o r)).
Proof. unfold lgh, done_amid. destruct r as [[a|e| |] h]; try apply ext_refl. apply ext_one. Qed.
Lemma open_ok_canon p sh c h : open_amid H p sh = (inl c, h) -> canon (now H 3 sh) p = canon fs p.
Proof.
  unfold open_amid, open_file. intros E. apply (there_canon all H fs S C). unfold is_file, now in *. destruct (fs_entry _ p) as [[i e]|]; [reflexivity|discriminate].
Qed.
Lemma amid_load k : forall ty p sh, near (sh_log sh) (lgh (load_amid H k ty p sh)) (lgh (load_file fs k ty p sh)) (load_amid H k ty p sh) (load_file fs k ty p sh).
Proof.
  induction k as [|k IH]; intros ty p sh; [split; [apply ext_refl|]; split; [apply ext_refl|auto]|].
  set (R1 := fun text h => match ty with
          | IStr => (Ok (VStr text), h)
          | IObj => let '(o, sh) := run_stream (am_parse_obj_stream (finish_amid H (load_amid H k)) (stream_fuel text)) (Some p) text h in (omap VObj o, sh)
          | IArr => let '(o, sh) := run_stream (am_parse_arr_stream (finish_amid H (load_amid H k)) (stream_fuel text)) (Some p) text h in (omap VArr o, sh)
          | ITup => let '(o, sh) := run_stream (am_parse_tup_stream (finish_amid H (load_amid H k)) (stream_fuel text)) (Some p) text h in (omap VTup o, sh)
          end).
  set (R2 := fun text h => match ty with
          | IStr => (Ok (VStr text), h)
          | IObj => let '(o, sh) := run_stream (parse_obj_stream fs (load_file fs k) (stream_fuel text)) (Some p) text h in (omap VObj o, sh)
          | IArr => let '(o, sh) := run_stream (parse_arr_stream fs (load_file fs k) (stream_fuel text)) (Some p) text h in (omap VArr o, sh)
          | ITup => let '(o, sh) := run_stream (parse_tup_stream fs (load_file fs k) (stream_fuel text)) (Some p) text h in (omap VTup o, sh)
          end).
  assert (G : forall text h, near (sh_log h) (lgh (R1 text h)) (lgh (R2 text h)) (R1 text h) (R2 text h)).
  { intros text h. unfold R1, R2.
    assert (Hf : forall ty f l c, am all H (old H fs) (finish_amid H (load_amid H k) ty f l c) (finish_include fs (load_file fs k) ty f l c))
      by (apply am_finish; auto).
    assert (X : forall (A : Type) (m m' : M A) (w : A -> value), am all H (old H fs) m m' ->
      near (sh_log h) (lgh (let '(o, sh) := run_stream m (Some p) text h in (omap w o, sh))) (lgh (let '(o, sh) := run_stream m' (Some p) text h in (omap w o, sh)))
       (let '(o, sh) := run_stream m (Some p) text h in (omap w o, sh)) (let '(o, sh) := run_stream m' (Some p) text h in (omap w o, sh))).
    { intros A m m' w Hm. destruct (am_stream all H (old H fs) m m' (Some p) text h Hm) as (I & I' & E). unfold lgh in *.
      destruct (run_stream m (Some p) text h) as [o h1]. destruct (run_stream m' (Some p) text h) as [o' h1']. cbn [snd fst] in *.
      split; [exact I|]. split; [exact I'|]. destruct E as [E|[E|E]]; [left; congruence|right; left; split; [apply lost_omap|]; apply E|right; right; exact E]. }
    destruct ty.
    - apply X. apply am_obj_stream; auto.
    - split; [apply ext_refl|]. split; [apply ext_refl|auto].
    - apply X. apply am_arr_stream; auto.
    - apply X. apply am_tup_stream; auto. }
  assert (D1 : load_amid H (Datatypes.S k) ty p sh = match open_amid H p sh with (inl c, h) => done_amid (canon (now H 3 sh) p) (R1 c h) | (inr e, h) => (Err e, h) end) by reflexivity.
  assert (D2 : load_file fs (Datatypes.S k) ty p sh = match open_file fs p sh with (inl c, h) => done_file fs p (R2 c h) | (inr e, h) => (Err e, h) end) by reflexivity.
  rewrite D1, D2. clear D1 D2. clearbody R1 R2.
  destruct (amid_open p sh) as (I1 & I1' & E1). unfold lgh in I1, I1'.
  assert (Q1 : ext (sh_log (snd (open_amid H p sh))) (lgh match open_amid H p sh with (inl c, h) => done_amid (canon (now H 3 sh) p) (R1 c h) | (inr e, h) => (Err e, h) end)).
  { destruct (open_amid H p sh) as [[c|e] h]; [exact (ext_trans _ _ _ (proj1 (G c h)) (ext_done_amid _ _))|apply ext_refl]. }
  assert (Q2 : ext (sh_log (snd (open_file fs p sh))) (lgh match open_file fs p sh with (inl c, h) => done_file fs p (R2 c h) | (inr e, h) => (Err e, h) end)).
  { destruct (open_file fs p sh) as [[c|e] h]; [exact (ext_trans _ _ _ (proj1 (proj2 (G c h))) (ext_done _ _ _))|apply ext_refl]. }
  split; [exact (ext_trans _ _ _ I1 Q1)|]. split; [exact (ext_trans _ _ _ I1' Q2)|].
  destruct E1 as [E1|[(e & E1 & K)|E1]]; [| |right; right; exact (diverged_ext _ _ _ _ _ E1 Q1 Q2)].
  - rewrite E1. destruct (open_amid H p sh) as [[c|e] h] eqn:O; [|auto]. rewrite (open_ok_canon _ _ _ _ O).
    destruct (G c h) as (J1 & J2 & [E|[E|E]]).
    + left. rewrite E. unfold done_amid, done_file. destruct (R1 c h) as [[a|x| |] h']; reflexivity.
    + right. left. destruct E as [E X]. destruct (R1 c h) as [[a|x| |] h']; cbn [done_amid fst] in *; [destruct (lost_ok _ _ _ E)| | |];
        (split; [exact E|]); exact (ext_trans _ _ _ X (ext_done _ _ _)).
    + right. right. eapply diverged_ext; [exact E| |]; [apply ext_done_amid|apply ext_done].
  - rewrite E1 in *. right. left. split; [apply K|]. exact (ext_trans _ _ _ I1' Q2).
Qed.
Lemma amid_str g text : near [] (lgh (parse_obj_str_amid H (inc_fuel fs) g text)) (lgh (parse_obj_str fs g text))
  (parse_obj_str_amid H (inc_fuel fs) g text) (parse_obj_str fs g text).
Proof.
  apply (am_stream all H (old H fs) _ _ None text (init_sh g)). apply am_obj_stream. apply am_finish; auto. apply amid_load.
Qed.
Lemma amid_file g path : near [] (lgh (parse_obj_file_amid H (inc_fuel fs) g path)) (lgh (parse_obj_file fs g path))
  (parse_obj_file_amid H (inc_fuel fs) g path) (parse_obj_file fs g path).
Proof.
  set (F1 := fun (text : str) h => run_stream (am_parse_obj_stream (finish_amid H (load_amid H (inc_fuel fs))) (stream_fuel text)) (Some path) text h).
  set (F2 := fun (text : str) h => run_stream (parse_obj_stream fs (load_file fs (inc_fuel fs)) (stream_fuel text)) (Some path) text h).
  assert (G : forall text h, near (sh_log h) (lgh (F1 text h)) (lgh (F2 text h)) (F1 text h) (F2 text h)).
  { intros text h. apply am_stream. apply am_obj_stream. apply am_finish; auto. apply amid_load. }
  assert (D1 : parse_obj_file_amid H (inc_fuel fs) g path = match open_amid H path (init_sh g) with (inl c, h) => F1 c h | (inr e, h) => (Err e, h) end) by reflexivity.
  assert (D2 : parse_obj_file fs g path = match open_file fs path (init_sh g) with (inl c, h) => F2 c h | (inr e, h) => (Err e, h) end) by reflexivity.
  rewrite D1, D2. clear D1 D2. clearbody F1 F2.
  destruct (amid_open path (init_sh g)) as (I1 & I1' & E1). unfold lgh in I1, I1'.
  assert (Q1 : ext (sh_log (snd (open_amid H path (init_sh g)))) (lgh match open_amid H path (init_sh g) with (inl c, h) => F1 c h | (inr e, h) => (Err e, h) end)).
  { destruct (open_amid _ _ _) as [[c|e] h]; [exact (proj1 (G c h))|apply ext_refl]. }
  assert (Q2 : ext (sh_log (snd (open_file fs path (init_sh g)))) (lgh match open_file fs path (init_sh g) with (inl c, h) => F2 c h | (inr e, h) => (Err e, h) end)).
  { destruct (open_file _ _ _) as [[c|e] h]; [exact (proj1 (proj2 (G c h)))|apply ext_refl]. }
  split; [exact (ext_trans _ _ _ I1 Q1)|]. split; [exact (ext_trans _ _ _ I1' Q2)|].
  destruct E1 as [E1|[(e & E1 & K)|E1]]; [| |right; right; exact (diverged_ext _ _ _ _ _ E1 Q1 Q2)].
  - rewrite E1. destruct (open_amid H path (init_sh g)) as [[c|e] h]; [apply G|auto].
  - rewrite E1 in *. right. left. split; [apply K|]. exact (ext_trans _ _ _ I1' Q2).
Qed.
End Load.
