(** * AfreshConv: what a load gives is what reading every include afresh gives. *)
From Verif Require Export AfreshProofs Back Locality.
Open Scope N_scope.

(** ** How deep includes can be nested *)
Section Levels.
Context `{U : Unicode}.
Variables (fs : fsys) (ar : archive).
Hypothesis Coh : coherent fs.
Notation fresh_inc n file := (afresh fs ar n file).
Notation runs := (runs fs ar).

Definition files : nat := List.length (fs_files fs).
(** every file that has a value at depth [n] has one at a smaller depth *)
Definition stable (n : nat) : Prop := forall c, runs n c -> ~ ~ exists m, (m < n)%nat /\ runs m c.
Lemma stable_all n : stable n -> forall m full, runs m full -> ~ ~ exists m', (m' < n)%nat /\ runs m' full.
Proof.
  intros St m. induction m as [m IH] using (well_founded_induction lt_wf). intros full R.
  destruct (Nat.lt_ge_cases m n) as [L|L]; [eauto|]. destruct (Nat.eq_dec m n) as [->|Ne]; [apply St; exact R|].
  destruct m as [|m]; [lia|].
  destruct R as (path & c & h & [v y] & Ef & Ea & G & E).
  assert (Sv : serves nothing (fresh_inc (S m) (Some path)) (fresh_inc m (Some path))).
  { intros W gl gl' h1 h1' k p w x I _ E1. cbn [afresh] in E1.
    destruct (canon fs (target (Some path) p)) as [full1|] eqn:Ef1; [|discriminate]. destruct (ar full1) as [c1|] eqn:Ea1; [|discriminate].
    destruct (kind_eqb k (kind_in c1)) eqn:K; [|discriminate]. unfold apart in E1. cbn [fst snd] in E1.
    destruct (ev_contents _ c1 ([], h1)) as [[w1 y1]|] eqn:Ec; [|discriminate]. injection E1 as -> <-. cbn [fst snd]. split; [reflexivity|].
    assert (G1 : g_ok (sh_g h1)) by apply I. assert (G1' : g_ok (sh_g h1')) by apply I.
    destruct (contents_move nothing ltac:(exact (fun _ _ _ _ _ _ H => H)) _ _ c1 W h1 h1' w y1 (pure_serves fs ar Coh m _ _ (fun q => eq_refl)) I Logic.I Ec)
      as (w' & y' & W' & E' & Ic & M).
    destruct m as [|m].
    { exfalso. apply (IH 0%nat ltac:(lia) full1); [exists (target (Some path) p), c1, h1, (w, y1); auto|]. intros (m' & Lm & _). lia. }
    cbn [afresh]. rewrite Ef1, Ea1, K. unfold apart. cbn [fst snd].
    destruct (ev_contents (fresh_inc m (Some (target (Some path) p))) c1 ([], h1')) as [[v2 y2]|] eqn:X.
    - pose proof (contents_le fs ar m (S m) _ _ _ _ ltac:(lia) X) as X'. rewrite E' in X'. injection X' as <- <-.
      exists w', (snd y'), W'. auto.
    - exfalso. apply (IH (S m) ltac:(lia) full1); [exists (target (Some path) p), c1, h1, (w, y1); auto|].
      intros (m' & Lm & (path' & c' & h' & [v' z'] & F1 & F2 & F3 & F4)). assert (c' = c1) by congruence. subst c'.
      destruct (transfer fs ar Coh m' path' _ full1 c1 h' h1' v' z' F1 Ef1 F3 G1' F4) as (v2 & y2 & W2 & X2 & _).
      apply (contents_le fs ar m' m) in X2; [congruence|lia]. }
  destruct (contents_move nothing ltac:(exact (fun _ _ _ _ _ _ H => H)) _ _ c [] h h v y Sv (ids_nil _ _ G G) Logic.I E) as (v' & y' & W' & E' & _).
  apply (IH m ltac:(lia)). exists path, c, h, (v', y'). auto.
Qed.
Lemma climb n : ~ ~ ((exists m, (m <= n)%nat /\ stable m) \/
  exists l, NoDup l /\ List.length l = n /\ Forall (fun c => exists m, (m < n)%nat /\ runs m c) l).
Proof.
  induction n as [|n IH]; intros K.
  - apply K. right. exists []. repeat split; constructor.
  - apply IH. intros [(m & L & St)|(l & Nd & Len & F)]; [apply K; left; exists m; split; [lia|exact St]|].
    assert (X : ~ stable n) by (intros St; apply K; left; exists n; split; [lia|exact St]). apply X.
    intros c R Y. apply K. right. exists (c :: l). split; [|split].
    + constructor; [|exact Nd]. intros I. rewrite Forall_forall in F. apply Y, F, I.
    + cbn. congruence.
    + constructor; [exists n; split; [lia|exact R]|]. eapply Forall_impl; [|exact F]. intros a (m & L & Ra). exists m. split; [lia|exact Ra].
Qed.
(** No more includes than there are files need to be nested. *)
Lemma files_suffice n path full c h r : canon fs path = Some full -> ar full = Some c -> g_ok (sh_g h) ->
  ev_contents (fresh_inc n (Some path)) c ([], h) = Some r -> ev_contents (fresh_inc files (Some path)) c ([], h) = Some r.
Proof.
  intros Ef Ea G E. destruct (ev_contents (fresh_inc files (Some path)) c ([], h)) as [r'|] eqn:E'.
  - apply (contents_le fs ar files (max n files)) in E'; [|lia]. apply (contents_le fs ar n (max n files)) in E; [|lia]. congruence.
  - exfalso. assert (R : runs n full) by (exists path, c, h, r; auto). apply (climb (S files)). intros [(m & L & St)|(l & Nd & Len & F)].
    + apply (stable_all m St n full R). intros (m' & Lm & (path' & c' & h' & [v' z'] & F1 & F2 & F3 & F4)). assert (c' = c) by congruence. subst c'.
      destruct (transfer fs ar Coh m' path' path full c h' h v' z' F1 Ef F3 G F4) as (v2 & y2 & W2 & X2 & _).
      apply (contents_le fs ar m' files) in X2; [congruence|lia].
    + assert (Hi : incl (map Some l) (map fe_canon (fs_files fs))).
      { intros o I. apply in_map_iff in I as (a & <- & I). rewrite Forall_forall in F. destruct (F a I) as (m & _ & (p & _ & _ & _ & Ep & _)).
        unfold canon in Ep. destruct (fs_entry fs p) as [[i fe]|] eqn:En; [|discriminate]. rewrite <- Ep. apply in_map.
        unfold fs_entry in En. destruct (path_parent p); [|discriminate]. destruct (fs_resolve fs p) as [j|]; [|discriminate].
        destruct (nth_error (fs_files fs) j) eqn:Nt; [|discriminate]. injection En as <- <-. eapply nth_error_In; eauto. }
      apply NoDup_incl_length in Hi; [|apply FinFun.Injective_map_NoDup; [intros a b H; congruence|exact Nd]].
      rewrite !map_length in Hi. unfold files in *. lia.
Qed.
End Levels.

(** ** Loads that include every file as what it is *)
Definition fits (ar : archive) (e : event) : bool :=
  match e with EInc full k _ => match ar full with Some c => kind_eqb k (kind_in c) | None => false end | _ => true end.
Lemma respects_b ar log : respects ar log <-> forallb (fits ar) log = true.
Proof.
  rewrite forallb_forall. split.
  - intros H e I. destruct e; try reflexivity. destruct (H _ _ _ I) as (cc & E & <-). cbn [fits]. rewrite E. apply kind_eqb_eq. reflexivity.
  - intros H full k v I. specialize (H _ I). cbn [fits] in H. destruct (ar full) as [c|]; [|discriminate]. apply kind_eqb_eq in H. eauto.
Qed.
Lemma respects_ext ar l l' : ext l l' -> respects ar l' -> respects ar l.
Proof. intros X H full k v I. apply (H full k v). exact (ext_incl _ _ X _ I). Qed.

Section Conv.
Context `{U : Unicode}.
Variables (fs : fsys) (ar : archive).
Hypothesis Coh : coherent fs.
Hypothesis Des : describes fs ar.
Notation fresh_inc n file := (afresh fs ar n file).
Notation files := (files fs).

Lemma load_log k ty p sh : ext (sh_log sh) (sh_log (snd (load_file fs k ty p sh))).
Proof.
  rewrite <- (load_with_open fs k).
  refine (proj1 (loc_load (fun _ => False) fs fs (open_file fs) (open_file fs) (fun _ => eq_refl) (fun _ => eq_refl) _ k ty p sh)).
  intros q h. unfold same_or. enough (X : ext (sh_log h) (lgh (open_file fs q h))) by auto.
  unfold lgh, open_file. destruct (fs_entry fs q) as [[i fe]|]; [|apply ext_refl]. destruct (fe_read fe); apply ext_one.
Qed.
Lemma inc_log k file ty p x v y : inc_of fs (load_file fs k) file ty p x = Some (v, y) -> ext (sh_log (snd x)) (sh_log (snd y)).
Proof.
  destruct x as [gl sh]. rewrite inc_of_eq. destruct (canon fs (target file p)) as [full|]; [|discriminate].
  destruct (opened fs file (sh_open sh)) as [o|]; [|discriminate]. destruct (mem_str full o); [discriminate|].
  destruct (assoc full (sh_vals sh)) as [w|].
  - intros E. injection E as _ <-. cbn. apply ext_cons, ext_one.
  - match goal with |- context [load_file fs k ty ?q ?h] => pose proof (load_log k ty q h) as X; destruct (load_file fs k ty q h) as [[w|e| |] sh'] end; try discriminate.
    intros E. injection E as _ <-. cbn in *. apply ext_cons. exact (ext_trans _ _ _ (ext_one _ _) X).
Qed.
(** Includes of the implementation, restricted to what [ar] allows. *)
Definition okinc (k : nat) (file : option str) : inc_ty -> str -> ES value := fun ty p x =>
  match inc_of fs (load_file fs k) file ty p x with
  | Some (v, y) => if forallb (fits ar) (sh_log (snd y)) then Some (v, y) else None
  | None => None
  end.
Lemma bk_contents k file c x v y : ev_contents (inc_of fs (load_file fs k) file) c x = Some (v, y) ->
  respects ar (sh_log (snd y)) -> ev_contents (okinc k file) c x = Some (v, y).
Proof.
  set (Le := fun a b : est => ext (sh_log (snd a)) (sh_log (snd b))). set (G := fun a : est => respects ar (sh_log (snd a))).
  assert (B : forall ty p, bk Le G (inc_of fs (load_file fs k) file ty p) (okinc k file ty p)).
  { intros ty p a w b E. split; [eapply inc_log; exact E|]. intros g. unfold okinc. rewrite E. apply respects_b in g. rewrite g. reflexivity. }
  assert (L1 : forall a, Le a a) by (intros a; apply ext_refl).
  assert (L2 : forall a b d, Le a b -> Le b d -> Le a d) by (intros a b d; apply ext_trans).
  assert (L3 : forall (a : est) gl g, Le a (gl, set_g (snd a) g)) by (intros a gl g; apply ext_refl).
  assert (L4 : forall (a : est) gl, Le a (gl, snd a)) by (intros a gl; apply ext_refl).
  assert (L5 : forall a b, Le a b -> G b -> G a) by (intros a b; apply respects_ext).
  assert (K : bk Le G (ev_contents (inc_of fs (load_file fs k) file) c) (ev_contents (okinc k file) c)).
  { destruct c as [t|items|es|es]; cbn [ev_contents].
    - apply bk_ret; auto.
    - apply bk_bind; auto; [apply bk_doc; auto|]. intros o. apply bk_ret; auto.
    - apply bk_bind; auto; [apply bk_arr_doc; auto|]. intros o. apply bk_ret; auto.
    - apply bk_bind; auto; [apply bk_tup_doc; auto|]. intros o. apply bk_ret; auto. }
  intros E g. exact (proj2 (K _ _ _ E) g).
Qed.

(** What the load keeps of a file is what the file is. *)
Definition Tb (h h' : shared) : Prop := wfvals h /\ forall full w, assoc full (sh_vals h) = Some w ->
  exists path c h0 v0 y0 W0, canon fs path = Some full /\ ar full = Some c /\ g_ok (sh_g h0) /\
    ev_contents (fresh_inc files (Some path)) c ([], h0) = Some (v0, y0) /\ co W0 w v0 /\ ids 0 W0 (sh_g h) (sh_g (snd y0)).
Lemma Tb_later h1 h1' h2 h2' : sh_vals h2 = sh_vals h1 -> g_desc (sh_g h1) (sh_g h2) -> Tb h1 h1' -> Tb h2 h2'.
Proof.
  intros E D [Wf T]. split; [unfold wfvals; rewrite E; exact Wf|]. intros full w A. rewrite E in A.
  destruct (T full w A) as (path & c & h0 & v0 & y0 & W0 & X1 & X2 & X3 & X4 & X5 & X6).
  exists path, c, h0, v0, y0, W0. split; [exact X1|]. split; [exact X2|]. split; [exact X3|]. split; [exact X4|]. split; [exact X5|].
  eapply ids_later; eauto. apply desc_refl. apply X6.
Qed.
Lemma Tb_g h h' g g' : g_desc (sh_g h) g -> g_desc (sh_g h') g' -> Tb h h' -> Tb (set_g h g) (set_g h' g').
Proof. intros D _ T. exact (Tb_later h h' (set_g h g) (set_g h' g') eq_refl D T). Qed.
Lemma Tb_nil h h' : sh_vals h = [] -> Tb h h'.
Proof. intros E. split; [unfold wfvals; rewrite E; constructor|]. intros full w A. rewrite E in A. discriminate. Qed.

(** A file that is loaded as what it is: the value of its contents. *)
Lemma load_contents k path full c sh v sh' : canon fs path = Some full -> ar full = Some c -> wfvals sh ->
  load_file fs (S k) (kind_in c) path sh = (Ok v, sh') -> exists y, sh' = log_ev (EDone (Some full)) (snd y) /\
    ev_contents (inc_of fs (load_file fs k) (Some path)) c ([], log_ev (EOpen (Some full)) sh) = Some (v, y).
Proof.
  intros Ef Ea W L. destruct (Des _ _ _ Ef Ea) as (text & (i & fe & He & Hr & _) & Wr).
  cbn [load_file] in L. unfold open_file in L. rewrite He, Hr in L.
  assert (Hc : fe_canon fe = Some full) by (unfold canon in Ef; rewrite He in Ef; exact Ef).
  unfold done_file in L. rewrite Ef, Hc in L. set (sh2 := log_ev (EOpen (Some full)) sh) in *. assert (W2 : wfvals sh2) by exact W.
  destruct c as [t|items|es|es]; cbn [kind_in written ev_contents] in *.
  - subst t. injection L as <- <-. exists ([], sh2). split; reflexivity.
  - destruct (run_stream _ _ _ _) as [[o|e| |] shF] eqn:Rn; cbn [omap] in L; try discriminate. injection L as <- <-.
    apply (run_ok_agr _ _ _ _ _ _ _ _ (@obj_stream_agr U (fun _ => False) fs (load_file fs k) (Some path) limit64
      (fun d E => E) (fun d E => or_introl E) (load_wf fs k) _ items text (mkst (Some path) text 1 1 [] sh2) Wr eq_refl eq_refl (okst_init _ _ _ W2))) in Rn as (gl & Ev & _).
    exists (gl, shF). split; [reflexivity|]. unfold ebind. change (limit64) with limit64 in Ev. rewrite Ev. reflexivity.
  - destruct (run_stream _ _ _ _) as [[o|e| |] shF] eqn:Rn; cbn [omap] in L; try discriminate. injection L as <- <-.
    apply (run_ok_agr _ _ _ _ _ _ _ _ (@arr_stream_agr U (fun _ => False) fs (load_file fs k) (Some path) limit64
      (fun d E => E) (fun d E => or_introl E) (load_wf fs k) _ es text (mkst (Some path) text 1 1 [] sh2) Wr eq_refl eq_refl (okst_init _ _ _ W2))) in Rn as (gl & Ev & _).
    exists (gl, shF). split; [reflexivity|]. unfold ebind. rewrite Ev. reflexivity.
  - destruct (run_stream _ _ _ _) as [[o|e| |] shF] eqn:Rn; cbn [omap] in L; try discriminate. injection L as <- <-.
    apply (run_ok_agr _ _ _ _ _ _ _ _ (@tup_stream_agr U (fun _ => False) fs (load_file fs k) (Some path) limit64
      (fun d E => E) (fun d E => or_introl E) (load_wf fs k) _ es text (mkst (Some path) text 1 1 [] sh2) Wr eq_refl eq_refl (okst_init _ _ _ W2))) in Rn as (gl & Ev & _).
    exists (gl, shF). split; [reflexivity|]. unfold ebind. rewrite Ev. reflexivity.
Qed.

(** An include of a file that is kept. *)
Lemma kept_serves W file h h' p full c w gl' : ids 0 W (sh_g h) (sh_g h') -> Tb h h' -> canon fs (target file p) = Some full ->
  ar full = Some c -> assoc full (sh_vals h) = Some w -> forall hx, sh_vals hx = sh_vals h -> sh_g hx = sh_g h ->
  exists v' h1 W', fresh_inc (S files) file (kind_in c) p (gl', h') = Some (v', (gl', h1)) /\ incl W W' /\ moves Tb h h' W' w v' hx h1.
Proof.
  intros I T Ef Ea A hx Ex Gx. assert (Gh : g_ok (sh_g h)) by apply I. assert (Gh' : g_ok (sh_g h')) by apply I.
  destruct (proj2 T _ _ A) as (path & c' & h0 & v0 & y0 & W0 & X1 & X2 & X3 & X4 & X5 & X6). assert (c' = c) by congruence. subst c'.
  destruct (transfer fs ar Coh files path (target file p) full c h0 h' v0 y0 X1 Ef X3 Gh' X4) as (v1 & y1 & W1 & E1 & C1 & G1 & _ & D1 & D2).
  exists v1, (snd y1), (W ++ comp W0 W1). split.
  { cbn [afresh]. rewrite Ef, Ea, (proj2 (kind_eqb_eq _ _) eq_refl). unfold apart. cbn [fst snd]. rewrite E1. reflexivity. }
  split; [apply incl_appl, incl_refl|]. split; [|split; [|split; [|split]]].
  - eapply History.corr_mono; [apply incl_appr, incl_refl|]. eapply corr_comp; [exact X5|exact C1].
  - rewrite Gx. apply ids_union; [eapply ids_later; [exact I|apply desc_refl; exact Gh|exact D2]|]. eapply ids_comp; [exact X6|exact G1].
  - refine (Tb_later h h' hx (snd y1) Ex _ T). rewrite Gx. apply desc_refl. exact Gh.
  - rewrite Gx. apply desc_refl. exact Gh.
  - exact D2.
Qed.
Lemma conv_serves k : forall file, serves Tb (okinc k file) (fresh_inc (S files) file).
Proof.
  induction k as [|k IH]; intros file W gl gl' h h' ty p v x I T E; unfold okinc in E; rewrite inc_of_eq in E;
    destruct (canon fs (target file p)) as [full|] eqn:Ef; try discriminate;
    destruct (opened fs file (sh_open h)) as [o|] eqn:Eo; try discriminate;
    destruct (mem_str full o) eqn:Em; try discriminate;
    destruct (assoc full (sh_vals h)) as [w|] eqn:A; try discriminate.
  1,2: cbn [snd sh_log] in E; match type of E with (if ?b then _ else _) = _ => destruct b eqn:F; [|discriminate] end;
    injection E as -> <-; cbn [fst snd]; split; [reflexivity|]; apply respects_b in F;
    destruct (F full ty v (or_introl eq_refl)) as (c & Ea & <-);
    exact (kept_serves W file h h' p full c v gl' I T Ef Ea A (mksh (sh_vals h) _ _ (sh_g h)) eq_refl eq_refl).
  assert (Gh : g_ok (sh_g h)) by apply I. assert (Gh' : g_ok (sh_g h')) by apply I.
  set (path := target file p) in *. set (sh1 := mksh (sh_vals h) o (ETry full :: sh_log h) (sh_g h)) in *.
  destruct (load_file fs (S k) ty path sh1) as [[w|e| |] sh'] eqn:L; try discriminate.
  cbn [snd sh_log] in E. match type of E with (if ?b then _ else _) = _ => destruct b eqn:F; [|discriminate] end.
  injection E as -> <-. cbn [fst snd]. split; [reflexivity|]. apply respects_b in F.
  destruct (F full ty v (or_introl eq_refl)) as (c & Ea & <-).
  assert (T1 : Tb sh1 h') by (refine (Tb_later h h' sh1 h' eq_refl _ T); apply desc_refl; exact Gh).
  assert (Hwf : wf_value good_names v /\ wfvals sh') by (eapply load_wf; [|exact L]; apply T1).
  destruct (load_contents k path full c sh1 v sh' Ef Ea (proj1 T1) L) as (y & -> & Ev).
  apply bk_contents in Ev; [|refine (respects_ext _ _ _ _ F); apply ext_cons, ext_one].
  set (sh2 := log_ev (EOpen (Some full)) sh1) in *.
  assert (T2 : Tb sh2 h') by (refine (Tb_later sh1 h' sh2 h' eq_refl _ T1); apply desc_refl; exact Gh).
  destruct (contents_move Tb Tb_g _ _ c W sh2 h' v y (IH (Some path)) I T2 Ev) as (v' & y' & W' & E' & Ic & C & G' & T' & D1 & D2).
  apply (files_suffice fs ar Coh (S files) path full c h' (v', y') Ef Ea Gh') in E'.
  exists v', (snd y'), W'. split.
  { cbn [afresh]. fold path. rewrite Ef, Ea, (proj2 (kind_eqb_eq _ _) eq_refl). unfold apart. cbn [fst snd]. rewrite E'. reflexivity. }
  split; [exact Ic|]. split; [exact C|]. split; [exact G'|]. split; [|split; [exact D1|exact D2]].
  split; [constructor; [apply Hwf|apply T']|]. intros f u X. cbn [sh_vals assoc sh_g log_ev] in *. destruct (str_eqb_spec full f) as [<-|].
  - injection X as <-. exists path, c, h', v', y', W'. auto 10.
  - exact (proj2 T' f u X).
Qed.

(** A file that was loaded, including every file as what it is. *)
Lemma file_back g path full items o' sh' : g_ok g -> canon fs path = Some full -> ar full = Some (CObj items) ->
  parse_obj_file fs g path = (Ok o', sh') -> respects ar (sh_log sh') ->
  exists o y W, ev_contents (fresh_inc files (Some path)) (CObj items) ([], init_sh g) = Some (VObj o, y) /\
    co W (VObj o') (VObj o) /\ ids 0 W (sh_g sh') (sh_g (snd y)).
Proof.
  intros Gg Ef Ea E Rs. destruct (Des _ _ _ Ef Ea) as (text & (i & fe & He & Hr & _) & Wr). cbn [written] in Wr.
  assert (Hc : fe_canon fe = Some full) by (unfold canon in Ef; rewrite He in Ef; exact Ef).
  unfold parse_obj_file, open_file in *. rewrite He, Hr, Hc in *. set (sh2 := log_ev (EOpen (Some full)) (init_sh g)) in *.
  rename E into Rn.
  apply (run_ok_agr _ _ _ _ _ _ _ _ (@obj_stream_agr U (fun _ => False) fs (load_file fs (inc_fuel fs)) (Some path) limit64
      (fun d E => E) (fun d E => or_introl E) (load_wf fs (inc_fuel fs)) _ items text (mkst (Some path) text 1 1 [] sh2) Wr eq_refl eq_refl (okst_init (Some path) text sh2 (Forall_nil _)))) in Rn as (gl & Ev & _).
  assert (Ec : ev_contents (inc_of fs (load_file fs (inc_fuel fs)) (Some path)) (CObj items) ([], sh2) = Some (VObj o', (gl, sh'))).
  { cbn [ev_contents]. unfold ebind. rewrite Ev. reflexivity. }
  apply bk_contents in Ec; [|exact Rs].
  destruct (contents_move _ Tb_g _ _ (CObj items) [] sh2 (init_sh g) _ _ (conv_serves (inc_fuel fs) (Some path))
    (ids_nil _ _ Gg Gg) (Tb_nil sh2 (init_sh g) eq_refl) Ec) as (v' & y' & W & E' & _ & C & I & _).
  apply (files_suffice fs ar Coh _ path full (CObj items) (init_sh g) (v', y') Ef Ea Gg) in E'.
  assert (Al : exists o, v' = VObj o).
  { cbn [ev_contents] in E'. apply ebind_some in E' as (o & y & _ & E2). injection E2 as <- _. eauto. }
  destruct Al as (o & ->). exists o, y', W. split; [exact E'|]. split; [exact C|exact I].
Qed.
End Conv.
