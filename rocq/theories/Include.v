(** * Include: the induction over nested files. *)
From Verif Require Export Induct.
From Coq Require String.
Import String.StringSyntax.
Open Scope N_scope.

Section Inc.
Context `{U : Unicode}.
Variable fs : fsys.
(** a property of the process-global state kept by drawing ids and creating sentinels *)
Variable GP : gstate -> Prop.
Hypothesis GP_gen : forall g, GP g -> GP (bump g).
Hypothesis GP_sent : forall g k, GP g -> g_sent g k = None -> GP (g_new_sent g k).

(** [PX]: a panic is allowed, because the top-level file has no canonical path in UTF-8. *)
Variable PX : Prop.
Notation X := (fun b : bool => if b then PX else False).

Notation wfv := (wf_value good_names).
Notation wfo := (wf_obj good_names).

Definition canons : list str :=
  flat_map (fun e => match fe_canon e with Some c => [c] | None => [] end) (fs_files fs).
Lemma canons_len : (length canons <= length (fs_files fs))%nat.
Proof.
  unfold canons. induction (fs_files fs) as [|e l IH]; cbn; auto. rewrite app_length.
  destruct (fe_canon e); cbn; lia.
Qed.
Lemma canon_in p c : canon fs p = Some c -> In c canons.
Proof.
  unfold canon, fs_entry. destruct (path_parent p); [|discriminate]. destruct (fs_resolve fs p) as [i|]; [|discriminate].
  destruct (nth_error (fs_files fs) i) as [e|] eqn:E; [|discriminate]. intros H.
  unfold canons. apply in_flat_map. exists e. split; [eapply nth_error_In; eauto|]. rewrite H. cbn. auto.
Qed.

(** [C]: files in progress; [D]: finished but not yet cached. *)
Record LI (C D : list str) (sh : shared) : Prop := {
  li_nodup : NoDup (opens (sh_log sh));
  li_opened : forall c, In (Some c) (opens (sh_log sh)) ->
    In c C \/ In c D \/ exists v, assoc c (sh_vals sh) = Some v;
  li_cur : forall c, In c C -> In (Some c) (opens (sh_log sh)) /\ ~ In (Some c) (dones (sh_log sh));
  li_done : forall c, In (Some c) (dones (sh_log sh)) -> In (Some c) (opens (sh_log sh));
  li_pend : forall c, In c D -> In (Some c) (dones (sh_log sh));
  li_vals : forall c v, assoc c (sh_vals sh) = Some v ->
    wfv v /\ In (Some c) (dones (sh_log sh)) /\ exists ty, In (EInc c ty v) (sh_log sh);
  li_inc : forall c ty v, In (EInc c ty v) (sh_log sh) -> assoc c (sh_vals sh) = Some v;
  li_ok : includes_ok fs (sh_log sh);
  li_try : forall after, ~ cyclic_request (sh_log sh) after
}.

Definition SW (e : perr) (sh : shared) : Prop :=
  NoDup (opens (sh_log sh)) /\ includes_ok fs (sh_log sh) /\
  (forall after, cyclic_request (sh_log sh) after -> after = [] /\ is_cyc (e_kind e) = true) /\
  (is_cyc (e_kind e) = true -> cyclic_request (sh_log sh) []) /\
  GP (sh_g sh).
Definition IE (e : perr) : Prop := error_in_file fs e \/ error_unreadable fs e.

Definition SI (O C : list str) (sh : shared) : Prop :=
  sh_open sh = O /\ LI C [] sh /\ GP (sh_g sh).

Lemma LI_g C D sh g : LI C D sh -> LI C D (set_g sh g).
Proof. intros []. constructor; auto. Qed.
Lemma SI_SW O C e sh : SI O C sh -> is_cyc (e_kind e) = false -> SW e sh.
Proof.
  intros (_ & [] & G) H. split; [auto|]. split; [auto|]. split; [|split].
  - intros a K. exfalso; eapply li_try0; eauto.
  - congruence.
  - exact G.
Qed.
Lemma SI_gen O C sh : SI O C sh -> SI O C (set_g sh (bump (sh_g sh))).
Proof. intros (A & B & G). split; auto. split; [apply LI_g; auto|]. apply GP_gen; auto. Qed.
Lemma SI_sent O C sh k : SI O C sh -> g_sent (sh_g sh) k = None ->
  SI O C (set_g sh (g_new_sent (sh_g sh) k)).
Proof. intros (A & B & G) H. split; auto. split; [apply LI_g; auto|]. apply GP_sent; auto. Qed.

(** *** Log steps *)
Lemma app_cons_inv {A} (x : A) l l1 y l2 : x :: l = l1 ++ y :: l2 ->
  (l1 = [] /\ x = y /\ l = l2) \/ exists l1', l1 = x :: l1' /\ l = l1' ++ y :: l2.
Proof. destruct l1; cbn; intros E; inversion E; subst; eauto. Qed.

Lemma inc_ok_other e log : (forall c ty v, e <> EInc c ty v) -> includes_ok fs log -> includes_ok fs (e :: log).
Proof.
  intros He H l1 l2 c ty v E. apply app_cons_inv in E as [(_ & -> & _)|(l1' & -> & ->)].
  - exfalso. eapply He; eauto.
  - eapply H; eauto.
Qed.
Lemma try_other e log : (forall c, e <> ETry c) -> (forall a, ~ cyclic_request log a) ->
  forall a, ~ cyclic_request (e :: log) a.
Proof.
  intros He H a (c & b & E & P). apply app_cons_inv in E as [(_ & -> & _)|(l1' & -> & ->)].
  - eapply He; eauto.
  - eapply H. exists c, b. eauto.
Qed.

Lemma LI_not_progress C D sh c : LI C D sh -> ~ In c C -> ~ in_progress c (sh_log sh).
Proof.
  intros L H [P1 P2]. destruct L. apply li_opened0 in P1 as [K|[K|[v K]]]; auto.
  apply li_vals0 in K. tauto.
Qed.

Lemma LI_try C D sh c : LI C D sh -> ~ In c C -> LI C D (log_ev (ETry c) sh).
Proof.
  intros L H. pose proof (LI_not_progress _ _ _ _ L H) as Np. destruct L. constructor; cbn; auto.
  - intros c0 v E. apply li_vals0 in E as (? & ? & ty & ?). eauto 6.
  - intros c0 ty v [E|E]; [discriminate|eauto].
  - apply inc_ok_other; auto. discriminate.
  - intros a (c0 & b & E & P). apply app_cons_inv in E as [(_ & E & E2)|(l1' & -> & E)].
    + inversion E; subst c0 b; auto.
    + eapply li_try0. exists c0, b. split; [exact E|eassumption].
Qed.

Lemma LI_open C D sh c : LI C D sh -> ~ In c C -> ~ In c D -> assoc c (sh_vals sh) = None ->
  LI (c :: C) D (log_ev (EOpen (Some c)) sh).
Proof.
  intros L H HD Ha. destruct L. constructor; cbn; auto.
  - constructor; auto. intros K. apply li_opened0 in K as [K|[K|[v K]]]; auto.
    congruence.
  - intros c0 [E|K]; [inversion E; auto|]. apply li_opened0 in K. intuition.
  - intros c0 [<-|K].
    + split; auto. intros K. apply li_done0 in K.
      apply li_opened0 in K as [K|[K|[v K]]]; auto. congruence.
    + apply li_cur0 in K. tauto.
  - intros c0 v E. apply li_vals0 in E as (? & ? & ty & ?). eauto 6.
  - intros c0 ty v [E|E]; [discriminate|eauto].
  - apply inc_ok_other; auto. discriminate.
  - apply try_other; auto. discriminate.
Qed.

Lemma LI_finish C sh c : LI (c :: C) [] sh -> ~ In c C -> LI C [c] (log_ev (EDone (Some c)) sh).
Proof.
  intros L H. destruct L. constructor; cbn; auto.
  - intros c0 K. apply li_opened0 in K. cbn in K. intuition.
  - intros c0 K. destruct (li_cur0 c0); [cbn; auto|]. split; auto. intros [E|E]; auto.
    inversion E; subst; auto.
  - intros c0 [E|K]; auto. inversion E; subst. apply li_cur0. cbn; auto.
  - intros c0 [<-|K]; auto.
  - intros c0 v E. apply li_vals0 in E as (? & ? & ty & ?). eauto 6.
  - intros c0 ty v [E|E]; [discriminate|eauto].
  - apply inc_ok_other; auto. discriminate.
  - apply try_other; auto. discriminate.
Qed.

Lemma LI_new C sh c ty v o : LI C [c] sh -> assoc c (sh_vals sh) = None -> wfv v -> of_kind fs c ty v ->
  LI C [] (log_ev (EInc c ty v) (mksh ((c, v) :: sh_vals sh) o (sh_log sh) (sh_g sh))).
Proof.
  intros L Ha W K. destruct L. constructor; cbn [log_ev sh_log sh_vals]; auto.
  - intros c0 K0. apply li_opened0 in K0. cbn [assoc].
    destruct (str_eqb_spec c c0); [right; right; eauto|]. cbn in K0. intuition.
  - intros c0 [].
  - intros c0 v0. cbn [assoc]. destruct (str_eqb_spec c c0).
    + intros E; inversion E; subst. split; auto. split; [apply li_pend0; cbn; auto|]. exists ty. cbn. auto.
    + intros E. apply li_vals0 in E as (? & ? & ty' & ?). split; auto. split; auto. exists ty'. cbn. auto.
  - intros c0 ty0 v0 [E|E].
    + inversion E; subst. cbn. rewrite str_eqb_refl. auto.
    + apply li_inc0 in E. cbn. destruct (str_eqb_spec c c0); auto. subst. congruence.
  - intros l1 l2 c0 ty0 v0 E. apply app_cons_inv in E as [(_ & E & E2)|(l1' & -> & E)].
    + inversion E; subst c0 ty0 v0 l2. split; auto. intros ty' v' Hin. apply li_inc0 in Hin. congruence.
    + eapply li_ok0; eauto.
  - apply try_other; auto. discriminate.
Qed.

Lemma LI_hit C sh c ty v o : LI C [] sh -> assoc c (sh_vals sh) = Some v ->
  LI C [] (log_ev (EInc c ty v) (mksh (sh_vals sh) o (sh_log sh) (sh_g sh))).
Proof.
  intros L Ha. destruct L. constructor; cbn [log_ev sh_log sh_vals]; auto.
  - intros c0 v0 E. apply li_vals0 in E as (? & ? & ty' & ?). split; auto. split; auto. exists ty'. cbn. auto.
  - intros c0 ty0 v0 [E|E]; [inversion E; subst; auto|eauto].
  - intros l1 l2 c0 ty0 v0 E. apply app_cons_inv in E as [(_ & E & E2)|(l1' & -> & E)].
    + inversion E; subst c0 ty0 v0 l2. destruct (li_vals0 _ _ Ha) as (_ & _ & ty1 & K). split.
      * intros Hn. exfalso. eapply Hn; eauto.
      * intros ty' v' Hin. apply li_inc0 in Hin. congruence.
    + eapply li_ok0; eauto.
  - apply try_other; auto. discriminate.
Qed.

Lemma LI_openset C D sh o : LI C D sh -> LI C D (mksh (sh_vals sh) o (sh_log sh) (sh_g sh)).
Proof. intros []. constructor; auto. Qed.

(** *** One include *)
Definition room (C : list str) (k : nat) : Prop :=
  NoDup C /\ incl C canons /\ (S (length (fs_files fs)) <= length C + k)%nat.

(** What loading an included file does. *)
Definition LS (k : nat) : Prop := forall C sh ty path c,
  canon fs path = Some c -> sh_open sh = C -> LI C [] sh -> GP (sh_g sh) -> ~ In c C ->
  assoc c (sh_vals sh) = None -> room C k ->
  match load_file fs k ty path sh with
  | (Ok v, sh') => sh_open sh' = C /\ LI C [c] sh' /\ GP (sh_g sh') /\ wfv v /\ of_kind fs c ty v /\
                   assoc c (sh_vals sh') = None
  | (Err e, sh') => IE e /\ SW e sh'
  | (Panic, _) => PX
  | (NoFuel, _) => False
  end.

(** The current file [F], the files [O] that wait for it, all files in progress [C]. *)
Definition ctx (F : option str) (O C : list str) : Prop :=
  (F = None /\ O = [] /\ C = []) \/
  (PX /\ O = [] /\ C = [] /\ exists f, F = Some f /\ canon fs f = None) \/
  exists f cf, F = Some f /\ canon fs f = Some cf /\ C = cf :: O.

Lemma filter_self f O : ~ In f O -> filter (fun x => negb (str_eqb x f)) (f :: O) = O.
Proof.
  intros H. cbn. rewrite str_eqb_refl. cbn. induction O as [|a O IH]; auto. cbn in *.
  destruct (str_eqb_spec a f); [exfalso; auto|]. cbn. f_equal. auto.
Qed.

Lemma set_sh_sh s a b : set_sh (set_sh s a) b = set_sh s b.
Proof. reflexivity. Qed.

Section Finish.
Variable k : nat.
Hypothesis HLS : LS k.
Variable T : str.
Variables (F : option str) (O C : list str).
Hypothesis Hctx : ctx F O C.
Hypothesis Hroom : room C k.

Notation Inv := (Inv T F (SI O C)).
Notation Er := (Er T F SW IE).

Lemma finish_ok : forall ty f line col s, Inv s -> at_pos T line col ->
  wp X (finish_include fs (load_file fs k) ty f line col)
     (fun v s' => Inv s' /\ s_rest s' = s_rest s /\ wfv v) Er s.
Proof.
  intros ty f line col s I P. unfold finish_include. wp1. apply wp_getfile.
  rewrite (Inv_file _ _ _ _ I).
  wp1. unfold assert_. destruct (has_parent F) eqn:HP.
  2: { destruct Hctx as [(EF & _)|[(HPX & _)|(f0 & cf & EF & Ecf & _)]]; [subst F; discriminate|apply wp_panic; exact HPX|].
       subst F. unfold has_parent in HP. unfold canon, fs_entry in Ecf. destruct (path_parent f0); discriminate. }
  wp1.
  set (path := match F with Some f0 => beside f0 f | None => f end).
  assert (Fl : forall A (Q : A -> pstate -> Prop), wp X (fail (InvalidIncludePath f line col)) Q Er s).
  { intros. apply wp_failI with (SI := SI O C); auto. intros; eapply SI_SW; eauto. }
  destruct (is_file fs path); cbn [negb]; [|apply Fl].
  destruct (canon fs path) as [c|] eqn:Ec; [|apply Fl].
  destruct I as (If & It & Ig & (Io & Il & IG)).
  wps. cbn [set_sh s_sh].
  (* the set of open files while the include runs *)
  match goal with |- wp _ _ (fun a s' => wp X (@?k a) ?Q ?E s') ?E _ => set (K := k) end.
  assert (G : forall sh st, sh = mksh (sh_vals (s_sh s)) C (ETry c :: sh_log (s_sh s)) (sh_g (s_sh s)) ->
    (match st with Some cf => C = cf :: O | None => C = O end) ->
    wp X (K st) (fun v s' => Inv s' /\ s_rest s' = s_rest s /\ wfv v) Er (set_sh s sh)).
  { intros sh st Esh Est. unfold K. wps. cbn [set_sh s_sh].
    destruct (mem_str c (sh_open sh)) eqn:Mem.
    - (* cyclic *)
      apply wp_fail. split.
      { left. cbn. split; auto. }
      apply mem_str_iff in Mem. rewrite Esh in *. cbn [sh_open] in Mem. destruct Il.
      split; [auto|]. split; [apply inc_ok_other; auto; discriminate|]. split; [|split; [|cbn; auto]].
      + intros a Hc. split; auto. destruct Hc as (c0 & b & E & Pr). cbn [sh_log set_sh s_sh] in E.
        apply app_cons_inv in E as [(-> & _)|(l1' & -> & E)]; auto.
        exfalso. eapply li_try0. exists c0, b. split; [exact E|eassumption].
      + intros _. exists c, (sh_log (s_sh s)). split; auto. apply li_cur0; auto.
    - assert (Hnc : ~ In c C).
      { intros K0. apply mem_str_iff in K0. rewrite Esh in Mem. cbn [sh_open] in Mem. congruence. }
      assert (L1 : LI C [] sh).
      { rewrite Esh. pose proof (LI_openset _ _ _ C (LI_try _ _ _ _ Il Hnc)) as H. exact H. }
      (* the end of the function *)
      assert (Hend : forall v sh', sh_open sh' = C -> LI C [] (log_ev (EInc c ty v) (mksh (sh_vals sh') O (sh_log sh') (sh_g sh'))) ->
        GP (sh_g sh') -> wfv v -> wp X
         (let* sh := get_sh in
          let* _ :=
            (match st with
             | Some f =>
                 put_sh (mksh (sh_vals sh)
                              (filter (fun x => negb (str_eqb x f)) (sh_open sh))
                              (sh_log sh) (sh_g sh))
             | None => ret tt
             end) in
          let* sh := get_sh in
          let* _ := put_sh (log_ev (EInc c ty v) sh) in
          ret v) (fun v s' => Inv s' /\ s_rest s' = s_rest s /\ wfv v) Er (set_sh s sh')).
      { intros v sh' Ho L' G' W'. wps. cbn [set_sh s_sh].
        assert (Hst : wp X (match st with
             | Some f =>
                 put_sh (mksh (sh_vals sh')
                              (filter (fun x => negb (str_eqb x f)) (sh_open sh'))
                              (sh_log sh') (sh_g sh'))
             | None => ret tt
             end) (fun _ s' => s' = set_sh s (mksh (sh_vals sh') O (sh_log sh') (sh_g sh'))) Er (set_sh s sh')).
        { destruct st; wps.
          - rewrite Ho, Est, filter_self; auto. destruct Hroom as [Nd _]. rewrite Est in Nd. inversion Nd; auto.
          - unfold set_sh. f_equal. destruct sh'; cbn in *. congruence. }
        eapply wp_mono; [exact Hst| |auto]. intros _ s' ->. wps. cbn [set_sh s_sh].
        split; [|split; auto]. split; [exact If|]. split; [exact It|]. split; [exact Ig|].
        cbn. split; [reflexivity|]. split; [exact L'|exact G']. }
      wp1. destruct (assoc c (sh_vals sh)) as [v|] eqn:Av.
      + wp1. apply Hend.
        * rewrite Esh; auto.
        * apply LI_hit; auto.
        * rewrite Esh; auto.
        * destruct L1. apply li_vals0 in Av. tauto.
      + wp1. unfold wp at 1, run_include. cbn [set_sh s_sh].
        pose proof (HLS C sh ty path c Ec) as H.
        destruct (load_file fs k ty path sh) as [[v|e| |] sh']; cbn in H.
        * destruct H as (Ho & L' & G' & W' & Kd & Nn); auto; try (rewrite Esh; auto; fail).
          do 5 wp1.
          apply (Hend v (mksh ((c, v) :: sh_vals sh') (sh_open sh') (sh_log sh') (sh_g sh'))); auto.
          exact (LI_new C sh' c ty v O L' Nn W' Kd).
        * destruct H as [H1 H2]; auto; try (rewrite Esh; auto; fail). split; auto.
        * apply H; auto; rewrite Esh; auto.
        * apply H; auto; rewrite Esh; auto. }
  destruct Hctx as [(EF & EO & EC)|[(HPX & EO & EC & f0 & EF & Ecf)|(f0 & cf & EF & Ecf & EC)]].
  - match goal with |- wp _ ?m ?Q ?E ?s =>
      let H := fresh in assert (H : m = ret None) by (rewrite EF; reflexivity); rewrite H; clear H end.
    wp1. apply (G _ None); [|congruence]. cbn. unfold log_ev. f_equal. congruence.
  - match goal with |- wp _ ?m ?Q ?E ?s =>
      let H := fresh in assert (H : m = panic) by (rewrite EF, Ecf; reflexivity); rewrite H; clear H end.
    apply wp_panic. exact HPX.
  - match goal with |- wp _ ?m ?Q ?E ?s =>
      let H := fresh in assert (H : m = let* sh := get_sh in
                   let* _ := put_sh (mksh (sh_vals sh)
                                          (if mem_str cf (sh_open sh) then sh_open sh
                                           else cf :: sh_open sh)
                                          (sh_log sh) (sh_g sh)) in
                   ret (Some cf)) by (rewrite EF, Ecf; reflexivity); rewrite H; clear H end.
    do 5 wp1. rewrite set_sh_sh. apply (G _ (Some cf)); auto. cbn [set_sh s_sh log_ev sh_vals sh_open sh_log sh_g]. f_equal.
    destruct (mem_str cf (sh_open (s_sh s))) eqn:Mem; [|congruence].
    apply mem_str_iff in Mem. rewrite Io in Mem. destruct Hroom as [Nd _]. rewrite EC in Nd. inversion Nd; contradiction.
Qed.
End Finish.

Lemma in_text_init F T sh : in_text T (mkst F T 1 1 [] sh).
Proof. exists []. split; auto. apply pos_at_nil. Qed.

Lemma Inv_init F T O C sh : SI O C sh -> Inv T F (SI O C) (mkst F T 1 1 [] sh).
Proof.
  intros H. split; [reflexivity|]. split; [apply in_text_init|]. split; [constructor|exact H].
Qed.

Lemma canon_entry path c : canon fs path = Some c ->
  exists i e, fs_entry fs path = Some (i, e) /\ fe_canon e = Some c /\ In e (fs_files fs).
Proof.
  unfold canon. destruct (fs_entry fs path) as [[i e]|] eqn:E; [|discriminate]. intros H.
  exists i, e. repeat split; auto. unfold fs_entry in E. destruct (path_parent path); [|discriminate]. destruct (fs_resolve fs path); [|discriminate].
  destruct (nth_error (fs_files fs) n) eqn:N; [|discriminate]. inversion E; subst. eapply nth_error_In; eauto.
Qed.

(** Running a stream parser on a file or string. *)
Lemma run_spec {A} k (HLS : LS k) (p : M A) T F O C (P : A -> Prop) sh :
  ctx F O C -> room C k -> SI O C sh ->
  (forall s, Inv T F (SI O C) s -> s_rest s = T ->
     wp X p (fun a s' => Inv T F (SI O C) s' /\ P a) (Er T F SW IE) s) ->
  match run_stream p F T sh with
  | (Ok a, sh') => P a /\ SI O C sh'
  | (Err e, sh') => ((e_file e = F /\ located T (e_kind e)) \/ IE e) /\ SW e sh'
  | (Panic, _) => PX
  | (NoFuel, _) => False
  end.
Proof.
  intros Hc Hr HS Hp. specialize (Hp (mkst F T 1 1 [] sh) (Inv_init _ _ _ _ _ HS) eq_refl).
  unfold run_stream. unfold wp in Hp. destruct (p (mkst F T 1 1 [] sh)) as [[a|e| |] s']; auto.
  destruct Hp as [(_ & _ & _ & ?) ?]. auto.
Qed.

Lemma stream_fuel_len T : stream_fuel T = (4 * length T + 4)%nat.
Proof. reflexivity. Qed.

(** The three kinds of streams, at any level. *)
Section Streams.
Variable k : nat.
Hypothesis IH : LS k.
Variables (T : str) (F : option str) (O C : list str).
Hypothesis Hctx : ctx F O C.
Hypothesis Hroom : room C k.

Lemma level_obj s : Inv T F (SI O C) s -> s_rest s = T ->
  wp X (parse_obj_stream fs (load_file fs k) (stream_fuel T))
    (fun o s' => Inv T F (SI O C) s' /\ wfo o) (Er T F SW IE) s.
Proof.
  intros I R. apply obj_stream_spec; auto.
  - intros; eapply SI_SW; eauto.
  - intros; apply SI_gen; auto.
  - intros; apply SI_sent; auto.
  - apply finish_ok; auto.
  - unfold len. rewrite R, stream_fuel_len. lia.
Qed.
Lemma level_arr s : Inv T F (SI O C) s -> s_rest s = T ->
  wp X (parse_arr_stream fs (load_file fs k) (stream_fuel T))
    (fun o s' => Inv T F (SI O C) s' /\ wfv (VArr o)) (Er T F SW IE) s.
Proof.
  intros I R. apply arr_stream_spec; auto.
  - intros; eapply SI_SW; eauto.
  - intros; apply SI_gen; auto.
  - intros; apply SI_sent; auto.
  - apply finish_ok; auto.
  - unfold len. rewrite R, stream_fuel_len. lia.
Qed.
Lemma level_tup s : Inv T F (SI O C) s -> s_rest s = T ->
  wp X (parse_tup_stream fs (load_file fs k) (stream_fuel T))
    (fun o s' => Inv T F (SI O C) s' /\ wfv (VTup o)) (Er T F SW IE) s.
Proof.
  intros I R. apply tup_stream_spec; auto.
  - intros; eapply SI_SW; eauto.
  - intros; apply SI_gen; auto.
  - intros; apply SI_sent; auto.
  - apply finish_ok; auto.
  - unfold len. rewrite R, stream_fuel_len. lia.
Qed.
End Streams.

Lemma LS_all k : LS k.
Proof.
  induction k as [|k IH]; intros C sh ty path c Hc Ho HL HG Hn Ha (Nd & Inc & Rm).
  - exfalso. assert (NoDup (c :: C)) by (constructor; auto).
    assert (incl (c :: C) canons) by (intros x [<-|K]; [eapply canon_in; eauto|auto]).
    pose proof (NoDup_incl_length H H0). pose proof canons_len. cbn [length] in H1. lia.
  - cbn [load_file]. destruct (canon_entry _ _ Hc) as (i & e & Ee & Ec & Hin).
    unfold open_file. rewrite Ee, Ec.
    assert (HL1 : LI (c :: C) [] (log_ev (EOpen (Some c)) sh)) by (apply LI_open; auto).
    assert (HS1 : SI C (c :: C) (log_ev (EOpen (Some c)) sh)) by (split; auto).
    destruct (fe_read e) as [contents|msg] eqn:Er.
    2:{ split; [right; exists path, i, e, msg; auto|]. eapply SI_SW; eauto. }
    assert (Hctx : ctx (Some path) C (c :: C)) by (right; right; eauto).
    assert (Hroom : room (c :: C) k).
    { split; [constructor; auto|]. split; [|cbn [length]; lia].
      intros x [<-|K]; [eapply canon_in; eauto|auto]. }
    unfold done_file. rewrite Hc.
    assert (Hfin : forall v sh', wfv v -> of_kind fs c ty v -> SI C (c :: C) sh' ->
      sh_open (log_ev (EDone (Some c)) sh') = C /\ LI C [c] (log_ev (EDone (Some c)) sh') /\
      GP (sh_g (log_ev (EDone (Some c)) sh')) /\ wfv v /\ of_kind fs c ty v /\
      assoc c (sh_vals (log_ev (EDone (Some c)) sh')) = None).
    { intros v sh' W Kd (H1 & H2 & H3). split; auto. split; [apply LI_finish; auto|]. split; auto. split; auto.
      split; auto. cbn. destruct (assoc c (sh_vals sh')) eqn:A'; auto. exfalso.
      destruct H2. apply li_vals0 in A' as (_ & K & _). eapply li_cur0; eauto. cbn; auto. }
    assert (Herr : forall er sh', ((e_file er = Some path /\ located contents (e_kind er)) \/ IE er) /\ SW er sh' ->
      IE er /\ SW er sh').
    { intros er sh' [[[K1 K2]|K] K3]; split; auto. left. exists path, i, e, contents. auto. }
    destruct ty.
    + pose proof (run_spec k IH (parse_obj_stream fs (load_file fs k) (stream_fuel contents))
        contents (Some path) C (c :: C) wfo _ Hctx Hroom HS1
        (level_obj k IH contents (Some path) C (c :: C) Hctx Hroom)) as H.
      destruct (run_stream _ _ _ _) as [[o|er| |] sh']; cbn [omap]; auto.
      destruct H as [H1 H2]. apply (Hfin (VObj o) sh'); auto; [constructor; auto|exists o; auto].
    + cbn [omap]. apply (Hfin (VStr contents)); auto; [constructor|]. exists e, contents. auto.
    + pose proof (run_spec k IH (parse_arr_stream fs (load_file fs k) (stream_fuel contents))
        contents (Some path) C (c :: C) (fun a => wfv (VArr a)) _ Hctx Hroom HS1
        (level_arr k IH contents (Some path) C (c :: C) Hctx Hroom)) as H.
      destruct (run_stream _ _ _ _) as [[o|er| |] sh']; cbn [omap]; auto.
      destruct H as [H1 H2]. apply (Hfin (VArr o) sh'); auto; [exists o; auto].
    + pose proof (run_spec k IH (parse_tup_stream fs (load_file fs k) (stream_fuel contents))
        contents (Some path) C (c :: C) (fun a => wfv (VTup a)) _ Hctx Hroom HS1
        (level_tup k IH contents (Some path) C (c :: C) Hctx Hroom)) as H.
      destruct (run_stream _ _ _ _) as [[o|er| |] sh']; cbn [omap]; auto.
      destruct H as [H1 H2]. apply (Hfin (VTup o) sh'); auto; [exists o; auto].
Qed.

(** *** Top level *)
Lemma LI_init g : LI [] [] (init_sh g).
Proof.
  constructor; cbn; try (intros; discriminate); try (intros; contradiction).
  - constructor.
  - intros l1 l2 c ty v E. destruct l1; discriminate.
  - intros a (c & b & E & _). destruct a; discriminate.
Qed.
Lemma room_init : room [] (inc_fuel fs).
Proof. split; [constructor|]. split; [intros ? []|]. unfold inc_fuel. cbn. lia. Qed.

Theorem load_str_spec g text : GP g ->
  match parse_obj_str fs g text with
  | (Ok o, sh) => wfo o /\ SI [] [] sh
  | (Err e, sh) => ((e_file e = None /\ located text (e_kind e)) \/ IE e) /\ SW e sh
  | (Panic, _) => PX
  | (NoFuel, _) => False
  end.
Proof.
  intros G. unfold parse_obj_str.
  apply (run_spec (inc_fuel fs) (LS_all _) _ text None [] [] wfo).
  - left; auto.
  - apply room_init.
  - split; [reflexivity|]. split; [apply LI_init|exact G].
  - apply level_obj; auto using LS_all, room_init. left; auto.
Qed.

Lemma SI_top_none g : GP g -> SI [] [] (log_ev (EOpen None) (init_sh g)).
Proof.
  intros G. split; [reflexivity|]. split; [|exact G].
  constructor; cbn; try (intros; discriminate); try (intros; contradiction).
  - repeat constructor. auto.
  - intros c [E|[]]. discriminate.
  - intros c ty v [E|[]]. discriminate.
  - intros l1 l2 c ty v E. destruct l1 as [|? l1]; inversion E. destruct l1; discriminate.
  - intros a (c & b & E & _). destruct a as [|? a]; inversion E. destruct a; discriminate.
Qed.

Theorem load_file_spec g path i e : GP g -> fs_entry fs path = Some (i, e) ->
  (fe_canon e = None -> PX) ->
  match parse_obj_file fs g path with
  | (Ok o, sh) => wfo o /\ exists C, SI [] C sh
  | (Err er, sh) => IE er /\ SW er sh
  | (Panic, _) => PX
  | (NoFuel, _) => False
  end.
Proof.
  intros G Ee HP. unfold parse_obj_file, open_file. rewrite Ee.
  assert (Hc : canon fs path = fe_canon e) by (unfold canon; rewrite Ee; auto).
  set (C := match fe_canon e with Some c => [c] | None => [] end).
  assert (HS1 : SI [] C (log_ev (EOpen (fe_canon e)) (init_sh g))).
  { unfold C. destruct (fe_canon e) as [c|] eqn:Ec; [|apply SI_top_none; auto].
    split; [reflexivity|]. split; [|exact G]. apply LI_open; auto. apply LI_init. }
  destruct (fe_read e) as [contents|msg] eqn:Er.
  2:{ split; [right; exists path, i, e, msg; auto|]. eapply SI_SW; eauto. }
  assert (Hroom : room C (inc_fuel fs)).
  { unfold C. destruct (fe_canon e) as [c|] eqn:Ec; [|apply room_init].
    split; [repeat constructor; auto|]. split.
    - intros x [<-|[]]. eapply canon_in; eauto.
    - unfold inc_fuel. cbn. lia. }
  assert (Hctx : ctx (Some path) [] C).
  { right. unfold C. destruct (fe_canon e) as [c|] eqn:Ec; [right; eauto 6|left; eauto 10]. }
  pose proof (run_spec (inc_fuel fs) (LS_all _) (parse_obj_stream fs (load_file fs (inc_fuel fs)) (stream_fuel contents))
     contents (Some path) [] C wfo _ Hctx Hroom HS1
     (level_obj _ (LS_all _) contents (Some path) [] C Hctx Hroom)) as H.
  destruct (run_stream _ _ _ _) as [[o|er| |] sh']; auto.
  - destruct H. eauto.
  - destruct H as [[[H1 H2]|H1] H3]; split; auto. left. exists path, i, e, contents. auto.
Qed.
End Inc.
