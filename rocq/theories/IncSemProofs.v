(** * IncSemProofs: the parser gives includes exactly the meaning of IncSem.v. *)
From Verif Require Export IncSem Complete EvalProofs.
Open Scope N_scope.

(** ** Two evaluations side by side

    [R] relates the states of the two; every step of the first is a step of the second. *)
Section Sim.
Variables inc inc' : inc_ty -> str -> ES value.
Variable lim : N -> bool.
Variable R : est -> est -> Prop.
Hypothesis R_gl : forall x y, R x y -> fst x = fst y.
Hypothesis R_g : forall x y, R x y -> sh_g (snd x) = sh_g (snd y).
Hypothesis R_gen : forall x y, R x y -> R (fst x, set_g (snd x) (bump (sh_g (snd x)))) (fst y, set_g (snd y) (bump (sh_g (snd x)))).
Hypothesis R_sent : forall x y k, R x y -> g_sent (sh_g (snd x)) k = None ->
  R (fst x, set_g (snd x) (g_new_sent (sh_g (snd x)) k))
    (fst y, set_g (snd y) (g_new_sent (sh_g (snd x)) k)).
Hypothesis R_def : forall x y f v, R x y -> R ((f, v) :: fst x, snd x) ((f, v) :: fst y, snd y).
Hypothesis R_inc : forall k p x y v x', R x y -> inc k p x = Some (v, x') ->
  exists y', inc' k p y = Some (v, y') /\ R x' y'.

Definition sim {A} (m m' : ES A) : Prop := forall x y a x', R x y -> m x = Some (a, x') ->
  exists y', m' y = Some (a, y') /\ R x' y'.
Lemma sim_ret {A} (a : A) : sim (eret a) (eret a).
Proof. intros x y b x' H E. inversion E; subst. exists y. auto. Qed.
Lemma sim_fail {A} (m : ES A) : sim efail m.
Proof. intros x y b x' H E. discriminate. Qed.
Lemma sim_lift {A} (o : option A) : sim (elift o) (elift o).
Proof. destruct o; [apply sim_ret|apply sim_fail]. Qed.
Lemma sim_bind {A B} (m m' : ES A) (f f' : A -> ES B) : sim m m' -> (forall a, sim (f a) (f' a)) -> sim (ebind m f) (ebind m' f').
Proof.
  intros Hm Hf x y b x' H E. apply ebind_some in E as (a & x1 & E1 & E2).
  destruct (Hm _ _ _ _ H E1) as (y1 & F1 & H1). destruct (Hf _ _ _ _ _ H1 E2) as (y2 & F2 & H2).
  exists y2. split; auto. unfold ebind. rewrite F1. exact F2.
Qed.
Lemma sim_fresh : sim fresh fresh.
Proof.
  intros [gl sh] [gl' sh'] i z H E. cbn in E. inversion E; subst. pose proof (R_g _ _ H) as G. cbn in G.
  exists (gl', set_g sh' (bump (sh_g sh))). split; [cbn; rewrite G; reflexivity|]. exact (R_gen _ _ H).
Qed.
Lemma sim_sent k : sim (esentinel k) (esentinel k).
Proof.
  intros [gl sh] [gl' sh'] i z H E. pose proof (R_g _ _ H) as G. cbn in G. unfold esentinel in *. cbn [snd] in *.
  rewrite <- G. destruct (g_sent (sh_g sh) k) eqn:S.
  - inversion E; subst. eauto.
  - inversion E; subst. eexists. split; [reflexivity|]. exact (R_sent _ _ k H S).
Qed.
Lemma sim_globals : sim eglobals eglobals.
Proof. intros x y a x' H E. inversion E; subst. exists y. split; auto. unfold eglobals. rewrite (R_gl _ _ H). auto. Qed.
Lemma sim_define f v : sim (edefine f v) (edefine f v).
Proof. intros x y a x' H E. inversion E; subst. eexists. split; [reflexivity|]. apply R_def; auto. Qed.
Lemma sim_emap {A B} (f f' : A -> ES B) l : Forall (fun a => sim (f a) (f' a)) l -> sim (emap f l) (emap f' l).
Proof.
  induction 1 as [|a l Ha Hl IH]; cbn [emap]; [apply sim_ret|].
  apply sim_bind; auto. intros b. apply sim_bind; auto. intros bs. apply sim_ret.
Qed.
Lemma sim_deep {A} d (m m' : ES A) : sim m m' -> sim (deep lim d m) (deep lim d m').
Proof. unfold deep. destruct (lim d); auto. intros _. apply sim_fail. Qed.
Lemma sim_name fields g n : sim (ev_name fields g n) (ev_name fields g n).
Proof.
  unfold ev_name. destruct g.
  - apply sim_bind; [apply sim_globals|]. intros. apply sim_lift.
  - destruct (assoc n constants); [apply sim_ret|]. destruct (assoc n keywords); [|apply sim_lift].
    apply sim_bind; [apply sim_sent|]. intros. apply sim_ret.
Qed.
Lemma sim_op op v w : sim (ev_op op v w) (ev_op op v w).
Proof.
  unfold ev_op. destruct op; try apply sim_lift. destruct v; try apply sim_lift. destruct w; try apply sim_lift.
  destruct (most_specific _ _) as [[]|]; [|apply sim_fail].
  apply sim_bind; [apply sim_fresh|]. intros. apply sim_ret.
Qed.
Lemma sim_chain l : forall acc cur, sim (ev_chain acc cur l) (ev_chain acc cur l).
Proof.
  assert (AU : forall acc cur, sim (add_up acc cur) (add_up acc cur)).
  { intros [[s op]|] cur; [apply sim_op|apply sim_ret]. }
  induction l as [|[op w] l IH]; intros acc cur; cbn [ev_chain]; auto.
  destruct (is_priority op); apply sim_bind; auto. apply sim_lift.
Qed.
Lemma sim_keyword o ks : sim (ev_keyword o ks) (ev_keyword o ks).
Proof.
  induction ks as [|k ks IH]; cbn [ev_keyword]; [apply sim_ret|].
  apply sim_bind; [apply sim_sent|]. intros s. destruct (_ =? _); auto. apply sim_ret.
Qed.
Lemma sim_inc k p : sim (inc k p) (inc' k p).
Proof. intros x y v x'. apply R_inc. Qed.
Lemma sim_items (ev ev' : list pair_t -> expr -> ES value) its :
  Forall (fun p => forall fields, sim (ev fields (snd p)) (ev' fields (snd p))) its ->
  forall fields parent, sim (ev_items ev its fields parent) (ev_items ev' its fields parent).
Proof.
  induction 1 as [|[f e] its He Hits IH]; intros fields parent; [apply sim_ret|]. rewrite !ev_items_cons. cbn [snd] in He.
  destruct (kind_of_item f).
  - apply sim_bind; [apply sim_globals|]. intros g. destruct (assoc f g); [apply sim_fail|].
    apply sim_bind; auto. intros v. apply sim_bind; auto. apply sim_define.
  - destruct parent; [apply sim_fail|]. apply sim_bind; auto. intros []; auto; apply sim_fail.
  - destruct (mem_str _ _); [apply sim_fail|]. apply sim_bind; auto.
  - apply sim_fail.
Qed.
Lemma sim_ev : (forall a d fields, sim (ev_atom inc lim d fields a) (ev_atom inc' lim d fields a)) /\
               (forall e d fields, sim (ev_expr inc lim d fields e) (ev_expr inc' lim d fields e)).
Proof.
  apply ast_ind.
  - intros w d fields. apply sim_lift.
  - intros cs d fields. apply sim_lift.
  - intros g n d fields. apply sim_name.
  - intros g n sub IH d fields. rewrite !ev_dot. apply sim_bind; [apply sim_name|].
    intros v. destruct v; try apply sim_fail.
    + apply sim_bind; auto. intros. apply sim_lift.
    + apply sim_bind; auto. intros. apply sim_lift.
    + destruct sub; try apply sim_fail; destruct glob; try apply sim_fail; apply IH.
  - intros op a IH d fields. rewrite !ev_un. apply sim_bind; auto. intros. apply sim_lift.
  - intros es IH d fields. rewrite !ev_arr. apply sim_deep, sim_bind.
    + apply sim_emap. eapply Forall_impl; [|exact IH]. cbn. intros; auto.
    + intros vs. destruct (lub _); [|apply sim_fail]. apply sim_bind; [apply sim_fresh|]. intros. apply sim_ret.
  - intros es IH d fields. rewrite !ev_tup. apply sim_deep, sim_bind.
    + apply sim_emap. eapply Forall_impl; [|exact IH]. cbn. intros; auto.
    + intros vs. apply sim_bind; [apply sim_fresh|]. intros. apply sim_ret.
  - intros its IH d fields. rewrite !ev_obj. apply sim_deep, sim_bind.
    + apply sim_items. eapply Forall_impl; [|exact IH]. cbn. intros; auto.
    + intros r. apply sim_bind; [apply sim_fresh|]. intros. apply sim_ret.
  - intros e p IH IH2 d fields. rewrite !ev_inc. apply sim_deep, sim_bind; auto.
    intros v. destruct v; try apply sim_fail.
    + destruct p; [apply sim_fail|apply sim_inc].
    + apply sim_bind; [apply sim_keyword|]. intros [k|]; [|apply sim_fail].
      destruct p as [e2|]; [|apply sim_fail]. apply sim_bind; [apply IH2; auto|].
      intros v2. destruct v2; try apply sim_fail. apply sim_inc.
  - intros a l IHa IHl d fields. rewrite !ev_expr_Ex. apply sim_bind; auto. intros v.
    apply sim_bind; [|intros; apply sim_chain].
    apply sim_emap. eapply Forall_impl; [|exact IHl]. intros [op b] H. cbn [snd] in H.
    apply sim_bind; auto. intros. apply sim_ret.
Qed.
Lemma sim_doc items : sim (ev_doc inc lim items) (ev_doc inc' lim items).
Proof.
  unfold ev_doc. apply sim_bind.
  - apply sim_items. apply Forall_forall. intros p _ fields. apply sim_ev.
  - intros r. apply sim_bind; [apply sim_fresh|]. intros. apply sim_ret.
Qed.
Lemma sim_arr_doc es : sim (ev_arr_doc inc lim es) (ev_arr_doc inc' lim es).
Proof.
  unfold ev_arr_doc. apply sim_bind.
  - apply sim_emap. apply Forall_forall. intros p _. apply sim_ev.
  - intros vs. destruct (lub _); [|apply sim_fail]. apply sim_bind; [apply sim_fresh|]. intros. apply sim_ret.
Qed.
Lemma sim_tup_doc es : sim (ev_tup_doc inc lim es) (ev_tup_doc inc' lim es).
Proof.
  unfold ev_tup_doc. apply sim_bind.
  - apply sim_emap. apply Forall_forall. intros p _. apply sim_ev.
  - intros vs. apply sim_bind; [apply sim_fresh|]. intros. apply sim_ret.
Qed.
End Sim.

(** [R] relates the states of an evaluation under [inc] and one under [inc']. *)
Definition simrel (inc inc' : inc_ty -> str -> ES value) (R : est -> est -> Prop) : Prop :=
  (forall x y, R x y -> fst x = fst y) /\
  (forall x y, R x y -> sh_g (snd x) = sh_g (snd y)) /\
  (forall x y, R x y -> R (fst x, set_g (snd x) (bump (sh_g (snd x)))) (fst y, set_g (snd y) (bump (sh_g (snd x))))) /\
  (forall x y k, R x y -> g_sent (sh_g (snd x)) k = None ->
     R (fst x, set_g (snd x) (g_new_sent (sh_g (snd x)) k))
       (fst y, set_g (snd y) (g_new_sent (sh_g (snd x)) k))) /\
  (forall x y f v, R x y -> R ((f, v) :: fst x, snd x) ((f, v) :: fst y, snd y)) /\
  (forall k p x y v x', R x y -> inc k p x = Some (v, x') -> exists y', inc' k p y = Some (v, y') /\ R x' y').
(** [R] relates the states before and after a step of an evaluation under [inc]. *)
Definition keeprel (inc : inc_ty -> str -> ES value) (R : est -> est -> Prop) : Prop :=
  (forall x, R x x) /\ (forall x y z, R x y -> R y z -> R x z) /\
  (forall x i y, fresh x = Some (i, y) -> R x y) /\
  (forall x k o y, esentinel k x = Some (o, y) -> R x y) /\
  (forall x y f v, assoc f (fst x) = None -> R x y -> R x ((f, v) :: fst y, snd y)) /\
  (forall k p x v y, inc k p x = Some (v, y) -> R x y).
(** Evaluations with holes for includes. *)
Definition natural {A} (ev : (inc_ty -> str -> ES value) -> ES A) : Prop :=
  (forall inc inc' R, simrel inc inc' R -> sim R (ev inc) (ev inc')) /\
  (forall inc R, keeprel inc R -> keeps R (ev inc)).
Lemma nat_doc lim d : natural (fun inc => ev_doc inc lim d).
Proof.
  split.
  - intros inc inc' R (H1 & H2 & H3 & H4 & H5 & H6). apply sim_doc; auto.
  - intros inc R (H1 & H2 & H3 & H4 & H5 & H6). unfold ev_doc. apply keeps_bind; [exact H2|apply keeps_all_items; auto|].
    intros r. apply keeps_bind; [exact H2|apply keeps_fresh; auto|]. intros; apply keeps_ret; auto.
Qed.
Lemma nat_arr lim d : natural (fun inc => ev_arr_doc inc lim d).
Proof.
  split.
  - intros inc inc' R (H1 & H2 & H3 & H4 & H5 & H6). apply sim_arr_doc; auto.
  - intros inc R (H1 & H2 & H3 & H4 & H5 & H6). unfold ev_arr_doc. apply keeps_bind; [exact H2|..].
    + apply keeps_emap; auto. apply Forall_forall. intros q _. apply keeps_ev; auto.
    + intros r. destruct (lub _); [|apply keeps_fail]. apply keeps_bind; [exact H2|apply keeps_fresh; auto|]. intros; apply keeps_ret; auto.
Qed.
Lemma nat_tup lim d : natural (fun inc => ev_tup_doc inc lim d).
Proof.
  split.
  - intros inc inc' R (H1 & H2 & H3 & H4 & H5 & H6). apply sim_tup_doc; auto.
  - intros inc R (H1 & H2 & H3 & H4 & H5 & H6). unfold ev_tup_doc. apply keeps_bind; [exact H2|..].
    + apply keeps_emap; auto. apply Forall_forall. intros q _. apply keeps_ev; auto.
    + intros r. apply keeps_bind; [exact H2|apply keeps_fresh; auto|]. intros; apply keeps_ret; auto.
Qed.

(** ** One include of the implementation, as a function *)
Section Inc.
Context `{U : Unicode}.
Variable fs : fsys.
Notation wfv := (wf_value good_names).

Definition opened (file : option str) (o : list str) : option (list str) :=
  match file with
  | None => Some o
  | Some f => match canon fs f with None => None | Some cf => Some (if mem_str cf o then o else cf :: o) end
  end.
Definition closed (file : option str) (o : list str) : list str :=
  match file with
  | None => o
  | Some f => match canon fs f with None => o | Some cf => filter (fun x => negb (str_eqb x cf)) o end
  end.

Lemma inc_of_eq L file k p gl sh : inc_of fs L file k p (gl, sh) =
  match canon fs (target file p), opened file (sh_open sh) with
  | Some full, Some o =>
      if mem_str full o then None
      else match assoc full (sh_vals sh) with
           | Some v => Some (v, (gl, mksh (sh_vals sh) (closed file o) (EInc full k v :: ETry full :: sh_log sh) (sh_g sh)))
           | None =>
               match L k (target file p) (mksh (sh_vals sh) o (ETry full :: sh_log sh) (sh_g sh)) with
               | (Ok v, sh') => Some (v, (gl, mksh ((full, v) :: sh_vals sh') (closed file (sh_open sh'))
                                            (EInc full k v :: sh_log sh') (sh_g sh')))
               | _ => None
               end
           end
  | _, _ => None
  end.
Proof.
  destruct (has_parent file) eqn:HP.
  2: { unfold inc_of, finish_include, bind, getfile, assert_; cbn [s_file]. rewrite HP.
       destruct file as [f|]; [|discriminate]. unfold opened. cbn [has_parent] in HP.
       replace (canon fs f) with (@None str); [destruct (canon fs _); reflexivity|].
       unfold canon, fs_entry. destruct (path_parent f); [discriminate|reflexivity]. }
  unfold inc_of, finish_include, target, is_file, canon at 1 3, opened, closed, assert_.
  unfold bind, getfile, get_sh, put_sh, run_include, fail, panic, ret, log_ev; cbn [s_file s_sh set_sh fst snd]. rewrite HP.
  set (path := match file with Some f0 => beside f0 p | None => p end).
  destruct (fs_entry fs path) as [[i fe]|]; cbn [negb]; [|reflexivity].
  destruct (fe_canon fe) as [full|]; [|destruct file; reflexivity].
  destruct file as [f0|].
  - destruct (canon fs f0) as [ff|]; [|reflexivity]. cbn [s_sh set_sh log_ev sh_vals sh_open sh_log sh_g].
    destruct (mem_str full _); [reflexivity|]. destruct (assoc full (sh_vals sh)) as [w|]; [reflexivity|].
    cbn [s_sh set_sh sh_vals sh_open sh_log sh_g]. destruct (L k path _) as [[w|e| |] sh']; reflexivity.
  - cbn [s_sh set_sh log_ev sh_vals sh_open sh_log sh_g].
    destruct (mem_str full _); [reflexivity|]. destruct (assoc full (sh_vals sh)) as [w|]; [destruct sh; reflexivity|].
    cbn [s_sh set_sh sh_vals sh_open sh_log sh_g]. destruct (L k path _) as [[w|e| |] sh']; [destruct sh'|..]; reflexivity.
Qed.

(** *** Soundness: what the implementation does is in the relation. *)
Definition octx (file : option str) (O C : list str) : Prop :=
  NoDup C /\ ((file = None /\ O = [] /\ C = []) \/
              exists f cf, file = Some f /\ canon fs f = Some cf /\ C = cf :: O).
Lemma opened_octx file O C : octx file O C -> opened file O = Some C.
Proof.
  intros [Nd [(-> & -> & ->)|(f & cf & -> & Hc & ->)]]; [reflexivity|]. unfold opened. rewrite Hc.
  destruct (mem_str cf O) eqn:M; auto. apply mem_str_iff in M. inversion Nd; contradiction.
Qed.
Lemma closed_octx file O C : octx file O C -> closed file C = O.
Proof.
  intros [Nd [(-> & -> & ->)|(f & cf & -> & Hc & ->)]]; [reflexivity|]. unfold closed. rewrite Hc.
  inversion Nd; subst. apply filter_self; auto.
Qed.

Lemma same_refl sh : same_state sh sh.
Proof. split; reflexivity. Qed.
Lemma same_trans a b c : same_state a b -> same_state b c -> same_state a c.
Proof. intros [A1 A2] [B1 B2]. split; congruence. Qed.
Lemma same_sym a b : same_state a b -> same_state b a.
Proof. intros [A1 A2]. split; congruence. Qed.
Lemma includes_same C file k p gl sh sh2 v y : includes fs C file k p (gl, sh) v y -> same_state sh sh2 ->
  includes fs C file k p (gl, sh2) v y.
Proof.
  intros H [S1 S2]. inversion H; subst.
  - eapply inc_again; eauto; [congruence|]. match goal with S : same_state sh _ |- _ => destruct S; split; congruence end.
  - eapply inc_first; eauto; [congruence|]. match goal with S : same_state sh _ |- _ => destruct S; split; congruence end.
Qed.

Definition reopen (O : list str) (sh : shared) : shared := mksh (sh_vals sh) O (sh_log sh) (sh_g sh).
(** the implementation, started with the right set of open files *)
Definition rinc (k : nat) (file : option str) (O : list str) : inc_ty -> str -> ES value :=
  fun ty p x => inc_of fs (load_file fs k) file ty p (fst x, reopen O (snd x)).

Definition RS (O : list str) (x y : est) : Prop := x = y /\ sh_open (snd x) = O /\ wfvals (snd x).

Definition sound (k : nat) : Prop := forall file O C ty p x v y, octx file O C -> sh_open (snd x) = O -> wfvals (snd x) ->
  inc_of fs (load_file fs k) file ty p x = Some (v, y) ->
  includes fs C file ty p x v y /\ sh_open (snd y) = O /\ wfvals (snd y).

Lemma reopen_id O sh : sh_open sh = O -> reopen O sh = sh.
Proof. intros <-. destruct sh; reflexivity. Qed.

Section Level.
Variable k : nat.
Hypothesis IH : sound k.
Variables (file : option str) (O C : list str).
Hypothesis Hc : octx file O C.

Lemma rinc_sound : forall ty p x w y, sane (snd x) -> rinc k file O ty p x = Some (w, y) -> includes fs C file ty p x w y.
Proof.
  intros ty p [gl sh] w y S E. unfold rinc in E. cbn [fst snd] in *.
  apply (IH file O C) in E as (E & _); auto. eapply includes_same; eauto. split; reflexivity.
Qed.
Lemma rinc_sim {A} (ev : (inc_ty -> str -> ES value) -> ES A) : natural ev ->
  forall x a y, sh_open (snd x) = O -> wfvals (snd x) -> ev (inc_of fs (load_file fs k) file) x = Some (a, y) ->
  ev (rinc k file O) x = Some (a, y).
Proof.
  intros [H _] x a y Ho W E.
  destruct (H (inc_of fs (load_file fs k) file) (rinc k file O) (RS O)) with (x := x) (y := x) (a := a) (x' := y) as (y' & E' & K & _).
  1: split; [|split; [|split; [|split; [|split]]]].
  - intros ? ? [-> _]; auto.
  - intros ? ? [-> _]; auto.
  - intros ? ? [-> [? ?]]; split; auto.
  - intros ? ? ? [-> [? ?]] _; split; auto.
  - intros ? ? ? ? [-> [? ?]]; split; auto.
  - intros ty p x0 y0 v x' [<- [Ho' W']] E'. exists x'.
    destruct (IH _ _ _ _ _ _ _ _ Hc Ho' W' E') as (_ & A1 & B1). split; [|split; auto].
    unfold rinc. rewrite (reopen_id _ _ Ho'). destruct x0; auto.
  - split; auto.
  - auto.
  - subst y'. exact E'.
Qed.
End Level.

Lemma run_ok_agr {A} (m : M A) (P : A -> Prop) (ev : ES A) file text sh a sh' :
  @agr _ (fun _ => False) A A P (fun x => x) m ev [] (mkst file text 1 1 [] sh) ->
  run_stream m file text sh = (Ok a, sh') -> exists gl, ev ([], sh) = Some (a, (gl, sh')) /\ wfvals sh'.
Proof.
  unfold agr, run_stream. destruct (m _) as [[b|e| |] s]; intros H E; inversion E; subst.
  destruct H as (H & _ & _ & (_ & K) & _). exists (s_globals s). split; auto.
Qed.

Notation objA k path n its text sh := (@obj_stream_agr U (fun _ => False) fs (load_file fs k) (Some path) limit64
    (fun d E => E) (fun d E => or_introl E) (load_wf fs k) n its text (mkst (Some path) text 1 1 [] sh)).
Notation arrA k path n its text sh := (@arr_stream_agr U (fun _ => False) fs (load_file fs k) (Some path) limit64
    (fun d E => E) (fun d E => or_introl E) (load_wf fs k) n its text (mkst (Some path) text 1 1 [] sh)).
Notation tupA k path n its text sh := (@tup_stream_agr U (fun _ => False) fs (load_file fs k) (Some path) limit64
    (fun d E => E) (fun d E => or_introl E) (load_wf fs k) n its text (mkst (Some path) text 1 1 [] sh)).

(** the open files never change on the way *)
Lemma inc_ctx path full C : canon fs path = Some full -> NoDup C -> ~ In full C -> octx (Some path) C (full :: C).
Proof. intros H N K. split; [constructor; auto|]. right. eauto 6. Qed.

Lemma open_keep {A} k (IH : sound k) file O C (ev : (inc_ty -> str -> ES value) -> ES A) x a y : octx file O C ->
  natural ev ->
  sh_open (snd x) = O -> wfvals (snd x) -> ev (inc_of fs (load_file fs k) file) x = Some (a, y) -> sh_open (snd y) = O.
Proof.
  intros Hc [_ H] Ho W E.
  refine (proj1 (H _ (fun x y => sh_open (snd x) = O -> wfvals (snd x) -> sh_open (snd y) = O /\ wfvals (snd y))
    _ _ _ _ E Ho W)).
  split; [|split; [|split; [|split; [|split]]]].
  - auto.
  - intros x0 y0 z0 A1 A2 B1 B2. destruct (A1 B1 B2). auto.
  - intros [gl sh] i y0 F. cbn in F. inversion F; subst; auto.
  - intros [gl sh] k0 o y0 F. unfold esentinel in F. cbn [snd] in F. destruct (g_sent _ _); cbn in F; inversion F; subst; auto.
  - intros x0 y0 f v _ A1. exact A1.
  - intros ty p x0 v y0 F A1 A2. destruct (IH _ _ _ _ _ _ _ _ Hc A1 A2 F) as (_ & ? & ?). auto.
Qed.

Lemma sound_all k : sound k.
Proof.
  induction k as [|k IH]; intros file O C ty p [gl sh] v y Hc Ho W E; rewrite inc_of_eq in E; cbn [snd] in *;
    destruct (canon fs (target file p)) as [full|] eqn:Ef; try discriminate;
    rewrite Ho, (opened_octx _ _ _ Hc) in E; destruct (mem_str full C) eqn:M; try discriminate;
    assert (Nin : ~ In full C) by (intros K; apply mem_str_iff in K; congruence);
    destruct (assoc full (sh_vals sh)) as [v0|] eqn:Ea; try discriminate.
  - inversion E; subst. split; [|split; [apply closed_octx; auto|exact W]].
    eapply inc_again; eauto. split; reflexivity.
  - inversion E; subst. split; [|split; [apply closed_octx; auto|exact W]].
    eapply inc_again; eauto. split; reflexivity.
  - set (path := target file p) in *. set (sh1 := mksh (sh_vals sh) C (ETry full :: sh_log sh) (sh_g sh)) in *.
    destruct (load_file fs (S k) ty path sh1) as [[w|e| |] sh'] eqn:L; try discriminate. inversion E; subst w y. clear E.
    assert (Hwf : wfv v /\ wfvals sh') by (eapply load_wf; [|exact L]; exact W).
    assert (Hc2 : octx (Some path) C (full :: C)) by (apply inc_ctx; auto; apply Hc).
    cbn [load_file] in L. unfold open_file in L. destruct (fs_entry fs path) as [[i fe]|] eqn:Ee; [|discriminate].
    destruct (fe_read fe) as [text|] eqn:Er; [|discriminate]. unfold done_file in L.
    set (sh2 := log_ev (EOpen (fe_canon fe)) sh1) in *.
    assert (W2 : wfvals sh2) by exact W. assert (O2 : sh_open (snd ([] : list (str * value), sh2)) = C) by reflexivity.
    assert (K : exists shF, file_value (rinc k (Some path) C) ty text sh2 v shF /\ sh' = log_ev (EDone (canon fs path)) shF /\ sh_open shF = C).
    { destruct ty.
      - destruct (run_stream _ _ _ _) as [[o|e| |] shF] eqn:Rn; cbn [omap] in L; try discriminate. injection L as <- <-. exists shF.
        destruct (run_doc fs k _ (Some path) text sh2 o shF W2 Rn) as [d Hd].
        apply (run_ok_agr _ _ _ _ _ _ _ _ (objA k path _ d text sh2 Hd eq_refl eq_refl (okst_init _ _ _ W2))) in Rn as (gl' & Ev & _).
        split; [|split; auto].
        + apply (fv_obj _ _ _ d _ gl' _ Hd). apply (rinc_sim k IH _ _ _ Hc2 (fun inc => ev_doc inc limit64 d) (nat_doc _ _) _ _ _ O2 W2 Ev).
        + exact (open_keep k IH _ _ _ (fun inc => ev_doc inc limit64 d) _ _ _ Hc2 (nat_doc _ _) O2 W2 Ev).
      - injection L as <- <-. exists sh2. split; [constructor|]. split; reflexivity.
      - destruct (run_stream _ _ _ _) as [[o|e| |] shF] eqn:Rn; cbn [omap] in L; try discriminate. injection L as <- <-. exists shF.
        destruct (run_arr_list fs k _ (Some path) text sh2 o shF W2 Rn) as [d Hd].
        apply (run_ok_agr _ _ _ _ _ _ _ _ (arrA k path _ d text sh2 Hd eq_refl eq_refl (okst_init _ _ _ W2))) in Rn as (gl' & Ev & _).
        split; [|split; auto].
        + apply (fv_arr _ _ _ d _ gl' _ Hd). apply (rinc_sim k IH _ _ _ Hc2 (fun inc => ev_arr_doc inc limit64 d) (nat_arr _ _) _ _ _ O2 W2 Ev).
        + exact (open_keep k IH _ _ _ (fun inc => ev_arr_doc inc limit64 d) _ _ _ Hc2 (nat_arr _ _) O2 W2 Ev).
      - destruct (run_stream _ _ _ _) as [[o|e| |] shF] eqn:Rn; cbn [omap] in L; try discriminate. injection L as <- <-. exists shF.
        destruct (run_tup_list fs k _ (Some path) text sh2 o shF W2 Rn) as [d Hd].
        apply (run_ok_agr _ _ _ _ _ _ _ _ (tupA k path _ d text sh2 Hd eq_refl eq_refl (okst_init _ _ _ W2))) in Rn as (gl' & Ev & _).
        split; [|split; auto].
        + apply (fv_tup _ _ _ d _ gl' _ Hd). apply (rinc_sim k IH _ _ _ Hc2 (fun inc => ev_tup_doc inc limit64 d) (nat_tup _ _) _ _ _ O2 W2 Ev).
        + exact (open_keep k IH _ _ _ (fun inc => ev_tup_doc inc limit64 d) _ _ _ Hc2 (nat_tup _ _) O2 W2 Ev). }
    destruct K as (shF & FV & -> & OF). split; [|split].
    + eapply inc_first with (inc := rinc k (Some path) C) (sh0 := sh2) (sh1 := shF); eauto.
      * apply rinc_sound; auto.
      * split; reflexivity.
      * split; reflexivity.
    + cbn [snd sh_open log_ev]. rewrite OF. apply closed_octx; auto.
    + cbn [snd]. destruct Hwf. constructor; auto.
Qed.

(** *** Completeness: what is in the relation the implementation does. *)
Notation SI' := (SI fs (fun _ => True)).
Definition RC (O C : list str) (x y : est) : Prop :=
  fst x = fst y /\ same_state (snd x) (snd y) /\ SI' O C (snd x) /\ wfvals (snd x).
Lemma ctx_octx file O C k : ctx fs False file O C -> room fs C k -> octx file O C.
Proof.
  intros H [Nd _]. split; auto. destruct H as [H|[[[] _]|(f & cf & H)]]; [left; auto|right; eauto].
Qed.
Notation wt := (wp (fun b : bool => if b then False else False)).

Lemma complete_all : forall C file ty p y v y', includes fs C file ty p y v y' -> forall k O x,
  ctx fs False file O C -> room fs C k -> RC O C x y ->
  exists x', inc_of fs (load_file fs k) file ty p x = Some (v, x') /\ RC O C x' y'.
Proof.
  assert (TG : forall g : gstate, True -> True) by auto.
  assert (TS : forall (g : gstate) (k : inc_ty), True -> g_sent g k = None -> True) by auto.
  intros C file ty p y v y' H.
  assert (Fin : forall C file ty p gl (y' : est) v k O x, ctx fs False file O C -> room fs C k -> SI' O C (snd x) -> wfvals (snd x) ->
    forall sh', inc_of fs (load_file fs k) file ty p x = Some (v, (gl, sh')) -> gl = fst y' -> same_state sh' (snd y') ->
    exists x', inc_of fs (load_file fs k) file ty p x = Some (v, x') /\ RC O C x' y').
  { clear. intros C file ty p gl y' v k O [gl0 sh] Hx Hr HS W sh' E -> Sm. exists (fst y', sh'). split; auto.
    split; auto. split; auto. cbn [snd] in *. split.
    - pose proof (finish_ok fs (fun _ => True) False k (LS_all fs (fun _ => True) (fun _ _ => I) (fun _ _ _ _ => I) False k) []
        file O C Hx Hr ty p 1 1 (mkst file [] 1 1 [] sh)) as F.
      specialize (F (Inv_init _ _ _ _ _ _ _ HS)).
      assert (P : at_pos [] 1 1) by (exists [], []; split; auto; apply pos_at_nil).
      specialize (F P). unfold wp in F.
      assert (E2 : inc_of fs (load_file fs k) file ty p ([], sh) = Some (v, ([], sh'))).
      { rewrite inc_of_eq in *. destruct (canon fs _); [|discriminate]. destruct (opened _ _); [|discriminate].
        destruct (mem_str _ _); [discriminate|]. destruct (assoc _ _); [inversion E; subst; auto|].
        destruct (load_file _ _ _ _ _) as [[]]; inversion E; subst; auto. }
      pose proof (@finish_agr U (fun _ => False) fs (load_file fs k) file (load_wf fs k) ty p 1 1 (mkst file [] 1 1 [] sh)
        eq_refl (okst_init _ _ _ W)) as A.
      unfold agr in A. destruct (finish_include _ _ _ _ _ _ _) as [[w|e| |] s']; try contradiction.
      + destruct A as (A & _). unfold st in A. cbn [s_globals s_sh] in A. rewrite E2 in A. inversion A. destruct F as ((_ & _ & _ & F) & _). subst; exact F.
      + destruct A as [[]|A]. unfold st in A. cbn [s_globals s_sh] in A. congruence.
    - destruct (sound_all k file O C ty p (gl0, sh) v (fst y', sh')) as (_ & _ & K); auto.
      + eapply ctx_octx; eauto.
      + apply HS. }
  induction H as [C file ty p gl sh v sh' full Hf Hn Ha Hs|C file ty p gl sh v sh' full i fe text sh0 sh1 inc Hf Hn Ha He Hr Hi IH Hs0 FV Hs1];
    intros k O x Hx Rm (Gx & Sx & SIx & Wx); pose proof (ctx_octx _ _ _ _ Hx Rm) as Ox.
  - destruct x as [gl' shx]. cbn [fst snd] in *. destruct Sx as [Sv Sg]. subst gl'. destruct SIx as (Sop & SL & SG).
    eapply (Fin C file ty p gl (gl, sh') v k O (gl, shx)); auto; [split; auto|..].
    + rewrite inc_of_eq, Hf, Sop, (opened_octx _ _ _ Ox).
      destruct (mem_str full C) eqn:M; [apply mem_str_iff in M; contradiction|]. rewrite Sv, Ha. reflexivity.
    + destruct Hs; split; cbn; congruence.
  - destruct x as [gl' shx]. cbn [fst snd] in *. destruct Sx as [Sv Sg]. subst gl'. destruct SIx as (Sop & SL & SG).
    set (path := target file p) in *.
    set (shA := mksh (sh_vals shx) C (ETry full :: sh_log shx) (sh_g shx)).
    assert (Ha' : assoc full (sh_vals shA) = None) by (cbn; congruence).
    assert (SA : LI fs C [] shA) by exact (LI_openset fs _ _ _ C (LI_try fs _ _ _ _ SL Hn)).
    destruct k as [|k].
    { exfalso. destruct Rm as (Nd & Inc & Rm). assert (NoDup (full :: C)) by (constructor; auto).
      assert (incl (full :: C) (canons fs)) by (intros c [<-|K]; [eapply canon_in; eauto|auto]).
      pose proof (NoDup_incl_length H H0). pose proof (canons_len fs). cbn [length] in H1. lia. }
    pose proof (LS_all fs (fun _ => True) (fun _ _ => I) (fun _ _ _ _ => I) False (S k) C shA ty path full Hf eq_refl SA I Hn Ha' Rm) as LSp.
    assert (Hctx : ctx fs False (Some path) C (full :: C)) by (right; right; eauto).
    assert (Hroom : room fs (full :: C) k).
    { destruct Rm as (Nd & Inc & Rm). split; [constructor; auto|]. split; [|cbn [length]; lia].
      intros c [<-|K]; [eapply canon_in; eauto|auto]. }
    set (shB := log_ev (EOpen (Some full)) shA).
    assert (SB : SI' C (full :: C) shB) by (split; [reflexivity|split; auto; apply LI_open; auto]).
    assert (WB : wfvals shB) by exact Wx.
    assert (Ec : fe_canon fe = Some full) by (unfold canon in Hf; rewrite He in Hf; exact Hf).
    (* the value of the file, by the implementation *)
    assert (SIM : forall A (ev : (inc_ty -> str -> ES value) -> ES A) a gl1 sh1, natural ev ->
      ev inc ([], sh0) = Some (a, (gl1, sh1)) -> exists z, ev (inc_of fs (load_file fs k) (Some path)) ([], shB) = Some (a, z) /\ same_state (snd z) sh1).
    { intros A ev a gl1 sh2 [Hev _] E.
      destruct (Hev inc (inc_of fs (load_file fs k) (Some path)) (fun y x => RC C (full :: C) x y)) with
        (x := ([] : list (str * value), sh0)) (y := ([] : list (str * value), shB)) (a := a) (x' := (gl1, sh2)) as (z & E1 & E2); auto.
      1: split; [|split; [|split; [|split; [|split]]]].
      - intros ? ? (? & _); auto.
      - intros ? ? (_ & [_ ?] & _); auto.
      - intros x y (R1 & [R2 R3] & R4 & R5). split; auto. split; [split; cbn; auto|]. split; [|exact R5].
        rewrite <- R3. apply SI_gen; auto.
      - intros x y k0 (R1 & [R2 R3] & R4 & R5) N. split; auto. split; [split; cbn; auto|]. split; [|exact R5].
        rewrite <- R3 in *. apply SI_sent; auto.
      - intros x y f w (R1 & R2 & R4 & R5). split; [cbn; congruence|]. split; auto.
      - intros k0 p0 y x w y' R1 E0. eapply IH; eauto.
        destruct R1 as (_ & [R2 _] & _ & R5). unfold sane. rewrite <- R2. exact R5.
      - split; auto. split; [destruct Hs0; split; cbn; congruence|]. split; auto.
      - exists z. split; auto. apply E2. }
    assert (AGR : forall A (m : M A) (P : A -> Prop) ev a z f, 
      @agr _ (fun _ => False) A A P (fun x => x) m ev [] (mkst (Some path) text 1 1 [] shB) ->
      ev ([], shB) = Some (a, z) ->
      match done_file fs path (let '(o, sh) := run_stream m (Some path) text shB in (omap f o, sh)) with
      | (Ok v, sh') => True | (Err e, sh') => True | (Panic, _) => False | (NoFuel, _) => False end ->
      done_file fs path (let '(o, sh) := run_stream m (Some path) text shB in (omap f o, sh)) =
        (Ok (f a : value), log_ev (EDone (Some full)) (snd z))).
    { intros A m P ev a z f Ag E. unfold agr in Ag. unfold run_stream. destruct (m _) as [[b|e| |] s']; cbn [omap done_file]; try contradiction.
      - destruct Ag as (Ag & _). unfold st in Ag. cbn [s_globals s_sh] in Ag. rewrite Hf. intros _. rewrite E in Ag. inversion Ag; subst. reflexivity.
      - destruct Ag as [[]|Ag]. unfold st in Ag. cbn [s_globals s_sh] in Ag. congruence. }
    assert (LF : exists shL, load_file fs (S k) ty path shA = (Ok v, shL) /\ same_state shL sh1).
    { assert (Eo : forall q, load_file fs (S k) q path shA = done_file fs path
         match q with
          | IStr => (Ok (VStr text), shB)
          | IObj => let '(o, sh) := run_stream (parse_obj_stream fs (load_file fs k) (stream_fuel text)) (Some path) text shB in (omap VObj o, sh)
          | IArr => let '(o, sh) := run_stream (parse_arr_stream fs (load_file fs k) (stream_fuel text)) (Some path) text shB in (omap VArr o, sh)
          | ITup => let '(o, sh) := run_stream (parse_tup_stream fs (load_file fs k) (stream_fuel text)) (Some path) text shB in (omap VTup o, sh)
          end).
      { intros q. cbn [load_file]. unfold open_file. rewrite He, Hr, Ec. reflexivity. }
      rewrite Eo in *.
      assert (Np : match (match ty with
          | IStr => (Ok (VStr text), shB)
          | IObj => let '(o, sh) := run_stream (parse_obj_stream fs (load_file fs k) (stream_fuel text)) (Some path) text shB in (omap VObj o, sh)
          | IArr => let '(o, sh) := run_stream (parse_arr_stream fs (load_file fs k) (stream_fuel text)) (Some path) text shB in (omap VArr o, sh)
          | ITup => let '(o, sh) := run_stream (parse_tup_stream fs (load_file fs k) (stream_fuel text)) (Some path) text shB in (omap VTup o, sh)
          end) with (Panic, _) => False | (NoFuel, _) => False | _ => True end).
      { destruct (match ty with IStr => _ | _ => _ end) as [[]]; auto. }
      destruct FV as [text sh0|text sh0 d o gl1 sh1 Hd Ev|text sh0 d o gl1 sh1 Hd Ev|text sh0 d o gl1 sh1 Hd Ev].
      - eexists. split; [cbn; rewrite Hf; reflexivity|]. destruct Hs0; split; cbn; congruence.
      - destruct (SIM _ (fun inc => ev_doc inc limit64 d) o gl1 sh1) as (z & E1 & E2); auto using nat_doc.
        eexists. split; [eapply AGR; [|exact E1|]|exact E2].
        + apply (objA k path _ d text shB Hd eq_refl eq_refl (okst_init (Some path) text shB WB)).
        + destruct (run_stream _ _ _ _) as [[]]; cbn in *; auto.
      - destruct (SIM _ (fun inc => ev_arr_doc inc limit64 d) o gl1 sh1) as (z & E1 & E2); auto using nat_arr.
        eexists. split; [eapply AGR; [|exact E1|]|exact E2].
        + apply (arrA k path _ d text shB Hd eq_refl eq_refl (okst_init (Some path) text shB WB)).
        + destruct (run_stream _ _ _ _) as [[]]; cbn in *; auto.
      - destruct (SIM _ (fun inc => ev_tup_doc inc limit64 d) o gl1 sh1) as (z & E1 & E2); auto using nat_tup.
        eexists. split; [eapply AGR; [|exact E1|]|exact E2].
        + apply (tupA k path _ d text shB Hd eq_refl eq_refl (okst_init (Some path) text shB WB)).
        + destruct (run_stream _ _ _ _) as [[]]; cbn in *; auto. }
    destruct LF as (shL & LF & [SL1 SL2]).
    eapply (Fin C file ty p gl (gl, sh') v (S k) O (gl, shx)); auto; [split; auto|..].
    + rewrite inc_of_eq. fold path. rewrite Hf, Sop, (opened_octx _ _ _ Ox).
      destruct (mem_str full C) eqn:M; [apply mem_str_iff in M; contradiction|]. rewrite Sv, Ha, <- Sv. fold shA. rewrite LF. reflexivity.
    + destruct Hs1 as [Q1 Q2]. cbn in Q1, Q2. split; cbn; congruence.
Qed.

(** ** The top level *)
Lemma octx_none : octx None [] [].
Proof. split; [constructor|auto]. Qed.
Definition top_chain (file : option str) : list str :=
  match file with Some f => match canon fs f with Some c => [c] | None => [] end | None => [] end.

Lemma loads_meaning file C sh0 d o : octx file [] C -> ctx fs False file [] C -> room fs C (inc_fuel fs) ->
  SI' [] C sh0 -> wfvals sh0 ->
  forall sh1, same_state sh0 sh1 ->
  ((exists x, meaning fs limit64 file sh0 d = Some (o, x)) ->
   exists inc y, (forall k p x w z, sane (snd x) -> inc k p x = Some (w, z) -> includes fs C file k p x w z) /\
     ev_doc inc limit64 d ([], sh0) = Some (o, y)) /\
  ((exists inc y, (forall k p x w z, sane (snd x) -> inc k p x = Some (w, z) -> includes fs C file k p x w z) /\
     ev_doc inc limit64 d ([], sh1) = Some (o, y)) ->
   exists x, meaning fs limit64 file sh0 d = Some (o, x)).
Proof.
  intros Oc Hc Rm HS W sh1 Sm. split.
  - intros ([gl sh] & E). exists (rinc (inc_fuel fs) file []).
    apply (rinc_sim (inc_fuel fs) (sound_all _) file [] C Oc (fun inc => ev_doc inc limit64 d)) in E; auto using nat_doc; [|apply HS].
    exists (gl, sh). split; auto. apply rinc_sound; auto. apply sound_all.
  - intros (inc & y & Hi & E).
    destruct (proj1 (nat_doc limit64 d) inc (include_meaning fs file) (fun y x => RC [] C x y)) with
      (x := ([] : list (str * value), sh1)) (y := ([] : list (str * value), sh0)) (a := o) (x' := y) as (z & E1 & _); auto.
    1: split; [|split; [|split; [|split; [|split]]]].
    + intros ? ? (? & _); auto.
    + intros ? ? (_ & [_ ?] & _); auto.
    + intros x y0 (R1 & [R2 R3] & R4 & R5). split; auto. split; [split; cbn; auto|]. split; [|exact R5].
      rewrite <- R3. apply SI_gen; auto.
    + intros x y0 k0 (R1 & [R2 R3] & R4 & R5) N. split; auto. split; [split; cbn; auto|]. split; [|exact R5].
      rewrite <- R3 in *. apply SI_sent; auto.
    + intros x y0 f w (R1 & R2 & R4 & R5). split; [cbn; congruence|]. split; auto.
    + intros k0 p0 y0 x w y' R1 E0. eapply complete_all; eauto. apply Hi; auto.
      destruct R1 as (_ & [R2 _] & _ & R5). unfold sane. rewrite <- R2. exact R5.
    + split; auto.
    + exists z. exact E1.
Qed.
End Inc.
