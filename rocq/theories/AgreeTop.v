(** * AgreeTop: loading a text that renders a document gives exactly the document's meaning. *)
From Verif Require Export AgreeMain Include Fuel.
From Coq Require String.
Import String.StringSyntax.
Open Scope N_scope.

(** ** Values of included files are well-formed. *)
Section LoadWf.
Context `{U : Unicode}.
Variable fs : fsys.
Notation wfv := (wf_value good_names).
Notation XT := (fun _ : bool => True).
Notation SWT := (fun (_ : perr) (_ : shared) => True).
Notation IET := (fun _ : perr => True).

Variable GP : gstate -> Prop.
Hypothesis GP_gen : forall g, GP g -> GP (bump g).
Hypothesis GP_sent : forall g k, GP g -> g_sent g k = None -> GP (g_new_sent g k).
Definition wg (sh : shared) : Prop := wfvals sh /\ GP (sh_g sh).

Lemma wg_SW e sh : wg sh -> is_cyc (e_kind e) = false -> SWT e sh.
Proof. intros. exact I. Qed.
Lemma finish_wg k (IH : forall ty p sh v sh', wg sh -> load_file fs k ty p sh = (Ok v, sh') ->
    wfv v /\ wg sh') T F ty f line col s :
  Inv T F wg s ->
  wp XT (finish_include fs (load_file fs k) ty f line col)
     (fun v s' => Inv T F wg s' /\ s_rest s' = s_rest s /\ wfv v) (Er T F SWT IET) s.
Proof.
  intros (I1 & I2 & I3 & I4). assert (G : forall e s', Er T F SWT IET e s') by (intros; split; [right|]; exact I).
  unfold wp, finish_include.
  destruct s as [fl r l c g sh]. cbn [s_file s_globals s_sh] in *.
  unfold bind, getfile, get_sh, put_sh, run_include, fail, panic, ret, log_ev; cbn [s_file s_sh set_sh].
  unfold assert_. destruct (has_parent fl); [|exact I]. unfold ret.
  set (path := match fl with Some f0 => beside f0 f | None => f end).
  destruct (negb (is_file fs path)); [apply G|].
  destruct (canon fs path) as [full|]; [|apply G].
  destruct fl as [f0|].
  - destruct (canon fs f0) as [ff|]; [|exact I]. cbn [s_sh set_sh log_ev sh_vals sh_open sh_log sh_g].
    destruct (mem_str full _); [apply G|].
    destruct (assoc full (sh_vals sh)) as [v|] eqn:A.
    + cbn. split; [|split; [reflexivity|eapply wfvals_assoc; [exact (proj1 I4)|eauto]]].
      split; [exact I1|]. split; [exact I2|]. split; [exact I3|exact I4].
    + cbn [s_sh set_sh sh_vals sh_open sh_log sh_g].
      match goal with |- context [load_file fs k ty path ?x] => destruct (load_file fs k ty path x) as [[v|e| |] sh'] eqn:L end;
        cbn; auto. apply IH in L as [L1 L2]; auto. split; [|auto].
      split; [exact I1|]. split; [exact I2|]. split; [exact I3|]. destruct L2; split; [constructor; auto|auto].
  - cbn [s_sh set_sh log_ev sh_vals sh_open sh_log sh_g].
    destruct (mem_str full _); [apply G|].
    destruct (assoc full (sh_vals sh)) as [v|] eqn:A.
    + cbn. split; [|split; [reflexivity|eapply wfvals_assoc; [exact (proj1 I4)|eauto]]].
      split; [exact I1|]. split; [exact I2|]. split; [exact I3|exact I4].
    + cbn [s_sh set_sh sh_vals sh_open sh_log sh_g].
      match goal with |- context [load_file fs k ty path ?x] => destruct (load_file fs k ty path x) as [[v|e| |] sh'] eqn:L end;
        cbn; auto. apply IH in L as [L1 L2]; auto. split; [|auto].
      split; [exact I1|]. split; [exact I2|]. split; [exact I3|]. destruct L2; split; [constructor; auto|auto].
Qed.

Lemma run_wg {A} (p : M A) T F (Q : A -> Prop) sh a sh' : wg sh ->
  (forall s, Inv T F wg s -> s_rest s = T ->
     wp XT p (fun a s' => Inv T F wg s' /\ Q a) (Er T F SWT IET) s) ->
  run_stream p F T sh = (Ok a, sh') -> Q a /\ wg sh'.
Proof.
  intros W H. unfold run_stream.
  assert (I0 : Inv T F wg (mkst F T 1 1 [] sh)).
  { split; [reflexivity|]. split; [apply in_text_init|]. split; [constructor|exact W]. }
  specialize (H _ I0 eq_refl). unfold wp in H. destruct (p _) as [[] s]; intros E; inversion E; subst.
  destruct H as [(_ & _ & _ & H1) H2]. auto.
Qed.

Lemma load_wg k : forall ty p sh v sh', wg sh -> load_file fs k ty p sh = (Ok v, sh') ->
    wfv v /\ wg sh'.
Proof.
  induction k as [|k IH]; intros ty p sh v sh' W E; [discriminate|]. cbn [load_file] in E.
  destruct (open_file fs p sh) as [[T|e] sh1] eqn:O; [|discriminate].
  assert (W1 : wg sh1).
  { unfold open_file in O. destruct (fs_entry fs p) as [[i fe]|]; [|discriminate].
    destruct (fe_read fe); inversion O; subst; exact W. }
  unfold done_file in E.
  assert (SG : forall sh, wg sh -> wg (set_g sh (bump (sh_g sh)))).
  { intros sh0 [A B]. split; [exact A|apply GP_gen; exact B]. }
  assert (SS : forall sh k, wg sh -> g_sent (sh_g sh) k = None ->
    wg (set_g sh (g_new_sent (sh_g sh) k))).
  { intros sh0 k0 [A B] N. split; [exact A|apply GP_sent; auto]. }
  assert (FS : forall ty f line col s, Inv T (Some p) wg s -> at_pos T line col ->
    wp XT (finish_include fs (load_file fs k) ty f line col)
     (fun v s' => Inv T (Some p) wg s' /\ s_rest s' = s_rest s /\ wfv v) (Er T (Some p) SWT IET) s).
  { intros. apply finish_wg; auto. }
  destruct ty.
  - destruct (run_stream _ _ _ _) as [[o|e| |] sh2] eqn:Rn; cbn [omap] in E; inversion E; subst.
    apply (run_wg _ _ _ (fun o => wfv (VObj o))) in Rn as [R1 R2]; auto.
    intros s Hs Rs. eapply wp_mono; [eapply obj_stream_spec with (SI := wg); eauto; try (intros; exact I); unfold len; rewrite Rs, stream_fuel_len; lia| |auto].
    cbn beta. intros a s' [? ?]. split; auto. constructor; auto.
  - inversion E; subst. split; auto. constructor.
  - destruct (run_stream _ _ _ _) as [[o|e| |] sh2] eqn:Rn; cbn [omap] in E; inversion E; subst.
    apply (run_wg _ _ _ (fun o => wfv (VArr o))) in Rn as [R1 R2]; auto.
    intros s Hs Rs. eapply arr_stream_spec with (SI := wg); eauto; try (intros; exact I); unfold len; rewrite Rs, stream_fuel_len; lia.
  - destruct (run_stream _ _ _ _) as [[o|e| |] sh2] eqn:Rn; cbn [omap] in E; inversion E; subst.
    apply (run_wg _ _ _ (fun o => wfv (VTup o))) in Rn as [R1 R2]; auto.
    intros s Hs Rs. eapply tup_stream_spec with (SI := wg); eauto; try (intros; exact I); unfold len; rewrite Rs, stream_fuel_len; lia.
Qed.
End LoadWf.
Lemma load_wf `{U : Unicode} fs k : forall ty p sh v sh', wfvals sh -> load_file fs k ty p sh = (Ok v, sh') ->
    wf_value good_names v /\ wfvals sh'.
Proof.
  intros ty p sh v sh' W E.
  destruct (load_wg fs (fun _ => True) (fun _ _ => I) (fun _ _ _ _ => I) k ty p sh v sh' (conj W I) E) as [A [B _]]. auto.
Qed.

(** ** Whole streams *)
Section Streams.
Context `{U : Unicode} `{EX : Exc}.
Variable fs : fsys.
Variable load_inc : inc_ty -> str -> shared -> outcome value * shared.
Variable file : option str.
Variable lim : N -> bool.
Hypothesis lim_lo : forall d, (d <=? 64) = true -> lim d = true.
Hypothesis lim_hi : forall d, (d <=? 64) = false -> lim d = false \/ (forall e, is_maxdepth e -> exc e).
Hypothesis load_ok : forall ty p sh v sh', wfvals sh ->
  load_inc ty p sh = (Ok v, sh') -> wf_value good_names v /\ wfvals sh'.
Notation inc := (inc_of fs load_inc file).
Notation all n := (A_all_holds fs load_inc file lim lim_lo lim_hi load_ok n).

Lemma obj_stream_agr n items T s : r_doc items T -> s_rest s = T -> s_file s = file -> okst s ->
  agr (fun o => okv (VObj o)) idp (parse_obj_stream fs load_inc n) (ev_doc inc lim items) [] s.
Proof.
  intros (w & t & c & -> & W & H & L) R Fl K. unfold parse_obj_stream, ev_doc.
  destruct items as [|it items].
  - apply r_items_nil in H as ->. cbn [app] in R.
    eapply agr_find_end; [exact W|exact L|exact R|]. intros l k. cbn [negb].
    apply (agr_congr _ _ _ (do i <- fresh;; eret (MkObj i [] None))); [reflexivity|]. unfold new_obj.
    eapply agr_bind; [apply gen_id_agr; auto|]. cbn beta. intros i s2 R2 F2 K2 _.
    apply agr_ret; auto. apply okv_obj. repeat split; auto; [constructor|constructor|discriminate].
  - assert (Hd : exists c0 r, t = c0 :: r /\ is_whitespace c0 = false).
    { inversion H as [|f' e' its' w1 t1 w2 t2 Hf2]; subst. destruct (item_head _ Hf2) as (c' & r & -> & Hc & _).
      eexists c', _. split; [reflexivity|auto]. }
    destruct Hd as (c0 & r & Et & Hc).
    eapply agr_find; [exact W|rewrite R, Et; reflexivity|exact Hc|]. intros l k. cbn [negb].
    eapply agr_bind.
    + apply (ARt _ _ _ _ _ (all n) (it :: items) t c 1 _ [] None); auto.
      * discriminate.
      * repeat split; [constructor|constructor|discriminate].
      * cbn. rewrite Et. reflexivity.
    + cbn beta. intros [ps par] s1 R1 F1 K1 (V1 & V2 & V3). cbn [fst snd] in *. unfold new_obj.
      rewrite <- R1. eapply agr_bind; [apply gen_id_agr; auto|]. cbn beta. intros i s2 R2 F2 K2 _.
      apply agr_ret; auto. apply okv_obj. auto.
Qed.

Lemma arr_file_agr n : forall es w t c s vs tcur any,
  ws w -> r_elems es t -> last_comment c -> Forall okv vs -> any = has_any tcur ->
  s_rest s = w ++ t ++ c -> s_file s = file -> okst s ->
  agr (fun r => Forall okv (fst r)) idp (arr_file_loop fs load_inc n vs tcur any)
    (ev_arrl fs load_inc file lim 1 [] vs tcur es) [] s.
Proof.
  induction n as [|n IH]; intros es w t c s vs tcur any W H L Vs An R Fl K; [exact I|].
  cbn [arr_file_loop]. destruct H as [|e es t w2 t' He W2 Hw Hes].
  - cbn [app] in R. cbn [ev_arrl].
    eapply agr_find_end; [exact W|exact L|exact R|]. intros l k. cbn [negb]. apply agr_ret; auto.
  - destruct (r_expr_head _ _ He) as (c3 & r3 & Et & Hc3 & Hc4).
    rewrite <- !app_assoc in R. cbn [ev_arrl].
    eapply agr_find; [exact W|rewrite R, Et; reflexivity|exact Hc3|]. intros l k. cbn [negb].
    apply agr_getpos. eapply agr_bind.
    + eapply (AE _ _ _ _ _ (all n) e t 1 [] _ _ None (w2 ++ t' ++ c)); auto.
      * apply (folb_elem _ es); auto. apply folb_last; auto.
      * constructor.
      * cbn. rewrite Et. reflexivity.
    + cbn beta. intros v s2 R2 F2 K2 V2.
      pose proof (check_step_lub tcur any (get_type v) An) as CS.
      destruct (arr_check_step tcur any (get_type v)) as [[t2 any2]|[t1 t2]].
      * destruct CS as [-> ->]. apply (IH es w2 t' c); auto; [|rewrite F2; exact Fl].
        apply Forall_app; split; auto.
      * rewrite CS. apply agr_fail. reflexivity.
Qed.
Lemma tup_file_agr n : forall es w t c s vs,
  ws w -> r_elems es t -> last_comment c -> Forall okv vs ->
  s_rest s = w ++ t ++ c -> s_file s = file -> okst s ->
  agr (Forall okv) idp (tup_file_loop fs load_inc n vs)
    (ev_tupl fs load_inc file lim 1 [] vs es) [] s.
Proof.
  induction n as [|n IH]; intros es w t c s vs W H L Vs R Fl K; [exact I|].
  cbn [tup_file_loop]. destruct H as [|e es t w2 t' He W2 Hw Hes].
  - cbn [app] in R. cbn [ev_tupl].
    eapply agr_find_end; [exact W|exact L|exact R|]. intros l k. cbn [negb]. apply agr_ret; auto.
  - destruct (r_expr_head _ _ He) as (c3 & r3 & Et & Hc3 & Hc4).
    rewrite <- !app_assoc in R. cbn [ev_tupl].
    eapply agr_find; [exact W|rewrite R, Et; reflexivity|exact Hc3|]. intros l k. cbn [negb].
    apply agr_getpos. eapply agr_bind.
    + eapply (AE _ _ _ _ _ (all n) e t 1 [] _ _ None (w2 ++ t' ++ c)); auto.
      * apply (folb_elem _ es); auto. apply folb_last; auto.
      * constructor.
      * cbn. rewrite Et. reflexivity.
    + cbn beta. intros v s2 R2 F2 K2 V2. apply (IH es w2 t' c); auto; [|rewrite F2; exact Fl].
      apply Forall_app; split; auto.
Qed.

Lemma arr_stream_agr n es T s : r_list es T -> s_rest s = T -> s_file s = file -> okst s ->
  agr (fun a => okv (VArr a)) idp (parse_arr_stream fs load_inc n) (ev_arr_doc inc lim es) [] s.
Proof.
  intros (w & t & c & -> & W & H & L) R Fl K. unfold parse_arr_stream.
  apply (agr_congr _ _ _ (do r <- ev_arrl fs load_inc file lim 1 [] [] TAny es;;
    do i <- fresh;; eret (MkArr i (snd r) (fst r)))).
  { intros x. unfold ebind at 1. rewrite ev_arrl_spec. unfold ev_arr_doc, ebind.
    destruct (emap _ es x) as [[vs y]|]; auto. change (lub_from TAny) with lub.
    destruct (lub (map get_type vs)); reflexivity. }
  eapply agr_bind.
  - apply (arr_file_agr n es w t c); auto.
  - cbn beta. intros [vs t0] s1 R1 F1 K1 V1. cbn [fst snd] in *. unfold new_arr. rewrite <- R1.
    eapply agr_bind; [apply gen_id_agr; auto|]. cbn beta. intros i s2 R2 F2 K2 _.
    apply agr_ret; auto. apply okv_arr. exact V1.
Qed.
Lemma tup_stream_agr n es T s : r_list es T -> s_rest s = T -> s_file s = file -> okst s ->
  agr (fun a => okv (VTup a)) idp (parse_tup_stream fs load_inc n) (ev_tup_doc inc lim es) [] s.
Proof.
  intros (w & t & c & -> & W & H & L) R Fl K. unfold parse_tup_stream.
  apply (agr_congr _ _ _ (do r <- ev_tupl fs load_inc file lim 1 [] [] es;;
    do i <- fresh;; eret (MkTup i (map get_type r) r))).
  { intros x. unfold ebind at 1. rewrite ev_tupl_spec. unfold ev_tup_doc, ebind.
    destruct (emap _ es x) as [[vs y]|]; auto. }
  eapply agr_bind.
  - apply (tup_file_agr n es w t c); auto.
  - cbn beta. intros vs s1 R1 F1 K1 V1. unfold new_tup. rewrite <- R1.
    eapply agr_bind; [apply gen_id_agr; auto|]. cbn beta. intros i s2 R2 F2 K2 _.
    apply agr_ret; auto. apply okv_tup. exact V1.
Qed.
End Streams.

(** ** Loading *)
Section Top.
Context `{U : Unicode}.
Variable fs : fsys.

(** What an include inside a text of the given file means. *)
Definition include_meaning (file : option str) : inc_ty -> str -> ES value :=
  inc_of fs (load_file fs (inc_fuel fs)) file.

(** The meaning of a document in a process with history [g]; [lim] limits the nesting. *)
Definition meaning (lim : N -> bool) (file : option str) (sh : shared) (items : list (str * expr)) : option (obj * est) :=
  ev_doc (include_meaning file) lim items ([], sh).

Lemma okst_init file T sh : wfvals sh -> okst (mkst file T 1 1 [] sh).
Proof. intros H. split; [constructor|exact H]. Qed.

Section Run.
Variables (file : option str) (sh0 : shared) (items : list (str * expr)) (text : str).
Hypothesis W0 : wfvals sh0.
Hypothesis H : r_doc items text.
Notation run := (run_stream (parse_obj_stream fs (load_file fs (inc_fuel fs)) (stream_fuel text)) file text sh0).

Lemma run_agree :
  match run with
  | (Ok o, sh) => exists gl, meaning limit64 file sh0 items = Some (o, (gl, sh))
  | (Err e, sh) => meaning limit64 file sh0 items = None
  | _ => True
  end.
Proof.
  unfold run_stream.
  pose proof (@obj_stream_agr U (fun _ => False) fs (load_file fs (inc_fuel fs)) file limit64
    (fun d E => E) (fun d E => or_introl E) (load_wf fs (inc_fuel fs)) (stream_fuel text) items text
    (mkst file text 1 1 [] sh0) H eq_refl eq_refl (okst_init _ _ sh0 W0)) as A.
  unfold agr in A. destruct (parse_obj_stream _ _ _ _) as [[o|e| |] s]; auto.
  - destruct A as [A _]. exists (s_globals s). exact A.
  - destruct A as [[]|A]. exact A.
Qed.
Lemma run_agree_nolimit :
  match run with
  | (Ok o, sh) => exists gl, meaning no_limit file sh0 items = Some (o, (gl, sh))
  | (Err e, sh) => is_maxdepth e \/ meaning no_limit file sh0 items = None
  | _ => True
  end.
Proof.
  unfold run_stream.
  pose proof (@obj_stream_agr U is_maxdepth fs (load_file fs (inc_fuel fs)) file no_limit
    (fun d E => eq_refl) (fun d E => or_intror (fun e x => x)) (load_wf fs (inc_fuel fs)) (stream_fuel text) items text
    (mkst file text 1 1 [] sh0) H eq_refl eq_refl (okst_init _ _ sh0 W0)) as A.
  unfold agr in A. destruct (parse_obj_stream _ _ _ _) as [[o|e| |] s]; auto.
  destruct A as [A _]. exists (s_globals s). exact A.
Qed.
End Run.

(** What a load returns. *)
Lemma str_total g text : exists r sh, parse_obj_str fs g text = (r, sh) /\ ((exists o, r = Ok o) \/ exists e, r = Err e).
Proof.
  pose proof (load_str_spec fs (fun _ => True) (fun _ _ => I) (fun _ _ _ _ => I) False g text I) as T.
  destruct (parse_obj_str fs g text) as [[o|e| |] sh]; try contradiction; eauto 6.
Qed.

Definition str_meaning (lim : N -> bool) (g : gstate) (items : list (str * expr)) : option (obj * est) :=
  meaning lim None (init_sh g) items.

Lemma str_ok g items text : r_doc items text -> forall o,
  from_str fs g text = Some (OOk o) <-> exists x, str_meaning limit64 g items = Some (o, x).
Proof.
  intros H o. pose proof (run_agree None (init_sh g) items text (Forall_nil _) H) as A.
  destruct (str_total g text) as (r & sh & E & T). unfold from_str. rewrite E. unfold parse_obj_str in E.
  rewrite E in A. unfold str_meaning. destruct T as [[o' ->]|[e ->]]; cbn.
  - destruct A as [gl A]. rewrite A. split; [intros K; inversion K; eauto|intros (x & K); congruence].
  - rewrite A. split; [discriminate|intros (x & K); discriminate].
Qed.
Lemma str_err g items text : r_doc items text ->
  (exists e, from_str fs g text = Some (OErr e)) <-> str_meaning limit64 g items = None.
Proof.
  intros H. pose proof (run_agree None (init_sh g) items text (Forall_nil _) H) as A.
  destruct (str_total g text) as (r & sh & E & T). unfold from_str. rewrite E. unfold parse_obj_str in E.
  rewrite E in A. unfold str_meaning. destruct T as [[o' ->]|[e ->]]; cbn.
  - destruct A as [gl A]. rewrite A. split; [intros [e K]; discriminate|discriminate].
  - split; eauto.
Qed.
(** Without the limit: the only difference is the error for too deep nesting. *)
Lemma str_nolimit g items text : r_doc items text -> forall o x,
  str_meaning no_limit g items = Some (o, x) ->
  from_str fs g text = Some (OOk o) \/
  exists e sh, parse_obj_str fs g text = (Err e, sh) /\ is_maxdepth e.
Proof.
  intros H o x M. pose proof (run_agree_nolimit None (init_sh g) items text (Forall_nil _) H) as A.
  destruct (str_total g text) as (r & sh & E & T). unfold from_str. rewrite E. unfold parse_obj_str in E.
  rewrite E in A. unfold str_meaning in M. destruct T as [[o' ->]|[e ->]]; cbn.
  - destruct A as [gl A]. left. congruence.
  - right. exists e, sh. split; auto. destruct A as [A|A]; [auto|congruence].
Qed.

Definition file_sh (g : gstate) (path : str) : shared := log_ev (EOpen (canon fs path)) (init_sh g).
Definition readable (path text : str) : Prop :=
  exists i fe, fs_entry fs path = Some (i, fe) /\ fe_read fe = inl text /\ fe_canon fe <> None.
Lemma file_total g path text : readable path text -> exists r sh, parse_obj_file fs g path = (r, sh) /\
  run_stream (parse_obj_stream fs (load_file fs (inc_fuel fs)) (stream_fuel text)) (Some path) text (file_sh g path) = (r, sh) /\
  ((exists o, r = Ok o) \/ exists e, r = Err e).
Proof.
  intros (i & fe & E1 & E2 & E3).
  pose proof (load_file_spec fs (fun _ => True) (fun _ _ => I) (fun _ _ _ _ => I) False g path i fe I E1) as T.
  specialize (T (fun x => E3 x)). unfold file_sh, canon. rewrite E1.
  unfold parse_obj_file, open_file in *. rewrite E1, E2 in *.
  destruct (run_stream _ _ _ _) as [[o|e| |] sh]; try contradiction; eauto 8.
Qed.
Lemma file_ok g path items text : readable path text -> r_doc items text -> forall o,
  from_file fs g path = Some (OOk o) <->
  exists x, meaning limit64 (Some path) (file_sh g path) items = Some (o, x).
Proof.
  intros Rd H o. pose proof (run_agree (Some path) (file_sh g path) items text (Forall_nil _) H) as A.
  destruct (file_total g path text Rd) as (r & sh & E & E' & T). unfold from_file. rewrite E.
  rewrite E' in A. destruct T as [[o' ->]|[e ->]]; cbn.
  - destruct A as [gl A]. rewrite A. split; [intros K; inversion K; eauto|intros (x & K); congruence].
  - rewrite A. split; [discriminate|intros (x & K); discriminate].
Qed.
Lemma file_err g path items text : readable path text -> r_doc items text ->
  (exists e, from_file fs g path = Some (OErr e)) <->
  meaning limit64 (Some path) (file_sh g path) items = None.
Proof.
  intros Rd H. pose proof (run_agree (Some path) (file_sh g path) items text (Forall_nil _) H) as A.
  destruct (file_total g path text Rd) as (r & sh & E & E' & T). unfold from_file. rewrite E.
  rewrite E' in A. destruct T as [[o' ->]|[e ->]]; cbn.
  - destruct A as [gl A]. rewrite A. split; [intros [e K]; discriminate|discriminate].
  - split; eauto.
Qed.
End Top.
