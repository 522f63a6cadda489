(** * PropText: what a text says about the data, and how texts combine: C33, C36 (text determines data),
    C50 (appending), C35 (loading what a crash left). *)
From Verif Require Import LangSpec PropLoad PropScope Complete Unique FormatProofs PropData PropRound PropComplete.
From Verif Require Import Prefix Disk PropDisk EvalProofs.
From Coq Require String.
Import String.StringSyntax.
Open Scope N_scope.

Section P.
Context `{U : Unicode}.

(** ** C33, C36: equal text is equal data.

    No bound on the depth: also for Objs too deep to be loaded back. *)
Let no_inc : inc_ty -> str -> ES value := fun _ _ _ => None.
Theorem C33_text_determines_obj o p : wf_obj good_names o -> wf_obj good_names p ->
  (write_to_string o = write_to_string p <-> obj_eqb o p = true).
Proof.
  intros Wo Wp. split; [|apply C33_equal_objs_same_text; auto using any_good].
  rewrite !write_to_string_fmt. intros E. injection E as E.
  pose proof (write_doc o (legal_good _ Wo)) as Ro. pose proof (write_doc p (legal_good _ Wp)) as Rp.
  rewrite E in Ro. pose proof (doc_unique _ _ _ Ro Rp) as Q.
  destruct (doc_round no_inc no_limit o ([], init_sh g0) Wo) as (o' & y & Eo & Vo); [intros k _ _; reflexivity|].
  destruct (doc_round no_inc no_limit p ([], init_sh g0) Wp) as (p' & z & Ep & Vp); [intros k _ _; reflexivity|].
  rewrite Q in Eo. apply obj_eqb_iff; auto using any_good. congruence.
Qed.
Theorem C36_text_determines_value v w : wf_value good_names v -> wf_value good_names w ->
  (value_display v = value_display w <-> value_eqb v w = true).
Proof.
  intros Wv Ww. split.
  - rewrite !value_display_fmt. intros E. injection E as E.
    pose proof (proj1 write_text v (proj1 (wf_weaken _ _ (fun l H => proj2 H)) v Wv) 4) as Rv.
    pose proof (proj1 write_text w (proj1 (wf_weaken _ _ (fun l H => proj2 H)) w Ww) 4) as Rw.
    rewrite E in Rv. pose proof (expr_unique _ _ _ Rv Rw) as Q.
    destruct (proj1 (quote_gives no_inc no_limit) v Wv 1 []) with (x := (@nil (str * value), init_sh g0)) as (v' & y & Ev & Vv & _); [intros k _ _; reflexivity|].
    destruct (proj1 (quote_gives no_inc no_limit) w Ww 1 []) with (x := (@nil (str * value), init_sh g0)) as (w' & z & Ew & Vw & _); [intros k _ _; reflexivity|].
    rewrite Q in Ev. apply value_eqb_iff; auto using any_good_v. congruence.
  - intros E. apply value_eqb_iff in E; auto using any_good_v. rewrite !value_display_fmt. f_equal. apply fmt_same; auto.
Qed.

(** ** C50: appending to a text *)
Lemma ev_items_extends (ev : list pair_t -> expr -> ES value) its : forall fields par x fields' par' y,
  ev_items ev its fields par x = Some ((fields', par'), y) ->
  (exists more, fields' = fields ++ more) /\ (par <> None -> par' = par).
Proof.
  induction its as [|[f e] its IH]; intros fields par x fields' par' y E.
  - injection E as <- <- <-. split; auto. exists []. rewrite app_nil_r. auto.
  - rewrite ev_items_cons in E. unfold ebind in E. destruct (kind_of_item f).
    + unfold eglobals in E. destruct (assoc f (fst x)); [discriminate E|]. destruct (ev fields e x) as [[v x2]|]; [|discriminate E].
      unfold edefine in E. eapply IH; eauto.
    + destruct par; [discriminate E|]. destruct (ev fields e x) as [[v x2]|]; [|discriminate E].
      destruct v; try discriminate E. apply IH in E as [H _]. split; auto. contradiction.
    + destruct (mem_str _ _); [discriminate E|]. destruct (ev fields e x) as [[v x2]|]; [|discriminate E].
      apply IH in E as [(more & ->) P]. split; auto. exists ((f, v) :: more). rewrite <- app_assoc. reflexivity.
    + discriminate E.
Qed.

(** If a text that is a document is continued on a new line, in whatever way, and the whole is accepted, then
    the text alone is accepted; its fields are the first fields of the whole, identical down to the identity
    of every container; its parent, if it has one, is the parent of the whole; and what was appended is
    itself a document. *)
Theorem C50_appending_extends fs g items t1 t2 o : r_doc items t1 ->
  from_str fs g (t1 ++ c_nl :: t2) = Some (OOk o) ->
  exists o1 more, from_str fs g t1 = Some (OOk o1) /\ obj_pairs o = obj_pairs o1 ++ more /\
    (obj_parent o1 <> None -> obj_parent o = obj_parent o1) /\ exists items2, r_doc items2 t2.
Proof.
  intros R E. apply C41_accepted_iff in E as (its & x & R' & E).
  destruct (cat_doc _ _ _ _ R R') as (its2 & -> & R2). unfold ev_doc in E.
  apply ebind_some in E as ([fields par] & y & E1 & E2). rewrite items_app in E1.
  apply ebind_some in E1 as ([fields1 par1] & y1 & E0 & E1). cbn [fst snd] in E1.
  apply ev_items_extends in E1 as [(more & ->) P].
  apply ebind_some in E2 as (i & z & F & E2). injection E2 as <- <-. cbn [obj_pairs obj_parent fst snd].
  destruct y1 as [gl1 sh1].
  exists (MkObj (g_next (sh_g sh1)) fields1 par1), more. cbn [obj_pairs obj_parent]. split; [|split; [reflexivity|split; [exact P|eauto]]].
  apply C41_accepted_iff. eexists items, _. split; [exact R|]. unfold ev_doc, ebind. rewrite E0. reflexivity.
Qed.
(** For a text that is accepted: *)
Corollary C50_accepted_prefix fs g t1 t2 o1 o : from_str fs g t1 = Some (OOk o1) ->
  from_str fs g (t1 ++ c_nl :: t2) = Some (OOk o) ->
  (exists more, obj_pairs o = obj_pairs o1 ++ more) /\ (obj_parent o1 <> None -> obj_parent o = obj_parent o1).
Proof.
  intros E1 E. pose proof E1 as E2. apply C41_accepted_iff in E2 as (its & x & R & _).
  destruct (C50_appending_extends fs g its t1 t2 o R E) as (o1' & more & E1' & H & P & _).
  assert (o1' = o1) by congruence. subst o1'. split; eauto.
Qed.
(** No continuation on a new line repairs a document that is rejected, or changes a field it has. *)
Corollary C50_error_stays fs g items t1 t2 e : r_doc items t1 -> from_str fs g t1 = Some (OErr e) ->
  exists e', from_str fs g (t1 ++ c_nl :: t2) = Some (OErr e').
Proof.
  intros R E. destruct (C03_from_str_returns fs g (t1 ++ c_nl :: t2)) as [[o|e'] E2]; [|eauto].
  destruct (C50_appending_extends fs g items t1 t2 o R E2) as (o1 & more & E1 & _). congruence.
Qed.
Corollary C50_fields_stay fs g t1 t2 o1 o f v : from_str fs g t1 = Some (OOk o1) ->
  from_str fs g (t1 ++ c_nl :: t2) = Some (OOk o) -> In (f, v) (obj_pairs o1) -> obj_get o f = Some v.
Proof.
  intros E1 E I. destruct (C50_accepted_prefix fs g t1 t2 o1 o E1 E) as [(more & H) _].
  assert (W : wf_obj good_names o) by (eapply loaded_wf; left; eauto).
  destruct o as [id ps par]. cbn [obj_pairs] in H. cbn [obj_get].
  inversion W as [id' ps' par' [ND _] _ _]; subst.
  assert (I' : In (f, v) (obj_pairs o1 ++ more)) by (apply in_or_app; auto).
  assert (assoc f (obj_pairs o1 ++ more) = Some v) as ->; [|reflexivity].
  revert ND I'. generalize (obj_pairs o1 ++ more). clear. induction l as [|[k w] l IH]; [contradiction|].
  cbn [map fst]. intros ND [I|I].
  - injection I as -> ->. cbn. rewrite str_eqb_refl. reflexivity.
  - inversion ND as [|? ? N1 N2]; subst. cbn. destruct (str_eqb k f) eqn:K; [|auto].
    exfalso. apply str_eqb_iff in K. subst k. apply N1. apply in_map_iff. exists (f, v). auto.
Qed.

Theorem C50_two_documents items1 t1 items2 t2 : r_doc items1 t1 -> r_doc items2 t2 ->
  r_doc (items1 ++ items2) (t1 ++ c_nl :: t2).
Proof. apply doc_cat. Qed.

(** ** C35: what is loaded after a crash *)
Definition take (k : nat) (o : obj) : obj := match o with MkObj id ps par => MkObj id (firstn k ps) par end.
Definition qi (p : pair_t) : str * expr := match p with (f, v) => (f, quote v) end.
Lemma map_split (ps : list pair_t) : forall its rest, map qi ps = its ++ rest ->
  its = map qi (firstn (List.length its) ps) /\ rest = map qi (skipn (List.length its) ps) /\ (List.length its <= List.length ps)%nat.
Proof.
  induction ps as [|p ps IH]; intros its rest E.
  - symmetry in E. apply app_eq_nil in E as [-> ->]. auto.
  - destruct its as [|i its]; [cbn in *; split; [auto|split; [auto|lia]]|]. cbn [map app] in E. injection E as <- E.
    apply IH in E as (E1 & E2 & E3). cbn [List.length firstn skipn map]. split; [f_equal; exact E1|]. split; [exact E2|lia].
Qed.
Lemma map_split_at ps pre f e rest : map qi ps = pre ++ (f, e) :: rest ->
  exists v, nth_error ps (List.length pre) = Some (f, v) /\ e = quote v /\ pre = map qi (firstn (List.length pre) ps).
Proof.
  intros E. apply map_split in E as (E1 & E2 & E3).
  destruct (skipn (List.length pre) ps) as [|[f' v] r] eqn:S; [discriminate|]. cbn [map qi] in E2. injection E2 as -> -> _.
  exists v. split; [|auto]. rewrite <- (firstn_skipn (List.length pre) ps), S, nth_error_app2; rewrite firstn_length, Nat.min_l by auto; [|lia].
  rewrite Nat.sub_diag. reflexivity.
Qed.
Lemma firstn_next {A} (l : list A) k x : nth_error l k = Some x -> firstn (S k) l = firstn k l ++ [x].
Proof. revert k. induction l as [|y l IH]; intros [|k] E; cbn in *; try discriminate; [congruence|]. f_equal. apply IH; auto. Qed.
Definition pi (par : option obj) : list (str * expr) :=
  match par with Some p => [(lit "^", quote (VObj p))] | None => [] end.
Lemma quote_items_eq id ps par : quote_items (MkObj id ps par) = pi par ++ map qi ps.
Proof. destruct par; reflexivity. Qed.
Lemma cut_written o its t rest : wf_obj good_names o -> fmt_body 0 o = t ++ rest -> r_doc its t ->
  its = [] \/ exists k, its = quote_items (take k o) \/
    exists f v e, nth_error (obj_pairs o) k = Some (f, v) /\ closed v = false /\ its = quote_items (take k o) ++ [(f, e)].
Proof.
  intros W E (w & T & c & -> & Ww & R & L). destruct (write_doc o (legal_good _ W)) as (w' & T' & c' & E' & Ww' & R' & L').
  rewrite E' in E. rewrite <- !app_assoc in E. symmetry in E.
  destruct (prefix_items _ _ R w _ w' T' c c' rest Ww Ww' R' L L' E) as (more & [Q|(pre & f & e & e' & -> & Q & C)]);
    destruct o as [id ps par]; rewrite quote_items_eq in Q; cbn [obj_pairs take].
  - destruct its as [|i its]; [auto|]. right. destruct par as [p|]; cbn [pi app] in Q.
    + injection Q as <- Q. apply map_split in Q as (-> & _ & _). eexists. left. rewrite quote_items_eq. reflexivity.
    + change (i :: its ++ more) with ((i :: its) ++ more) in Q. apply map_split in Q as (-> & _ & _). eexists. left. rewrite quote_items_eq. reflexivity.
  - right. assert (K : forall k v, nth_error ps k = Some (f, v) -> e' = quote v ->
      exists k', pi par ++ map qi (firstn k ps) ++ [(f, e)] = quote_items (MkObj id (firstn k' ps) par) \/
        exists f0 v0 e0, nth_error ps k' = Some (f0, v0) /\ closed v0 = false /\
          pi par ++ map qi (firstn k ps) ++ [(f, e)] = quote_items (MkObj id (firstn k' ps) par) ++ [(f0, e0)]).
    { intros k v N ->. destruct (closed v) eqn:Cl.
      - exists (S k). left. rewrite (closed_cut e v C Cl), quote_items_eq, (firstn_next _ _ _ N), map_app. reflexivity.
      - exists k. right. exists f, v, e. rewrite quote_items_eq, <- app_assoc. auto. }
    destruct par as [p|]; cbn [pi app] in Q, K.
    + destruct pre as [|i pre]; cbn [app] in Q.
      * injection Q as <- <- Q. rewrite (closed_cut e (VObj p) C eq_refl). exists 0%nat. left. rewrite quote_items_eq. reflexivity.
      * injection Q as <- Q. apply map_split_at in Q as (v & N & Ev & Ep). destruct (K _ v N Ev) as (k' & H). exists k'.
        cbn [app]. rewrite Ep. exact H.
    + apply map_split_at in Q as (v & N & Ev & Ep). destruct (K _ v N Ev) as (k' & H). exists k'. rewrite Ep. exact H.
Qed.

Lemma firstn_Forall {A} (P : A -> Prop) l k : Forall P l -> Forall P (firstn k l).
Proof. intros H. revert k. induction H; intros [|k]; cbn; auto. Qed.
Lemma firstn_NoDup {A} (l : list A) k : NoDup l -> NoDup (firstn k l).
Proof.
  intros H. revert k. induction H as [|x l N H IH]; intros [|k]; cbn; try constructor; auto.
  intros I. apply N. rewrite <- (firstn_skipn k l). apply in_or_app; auto.
Qed.
Lemma take_wf o k : wf_obj good_names o -> wf_obj good_names (take k o).
Proof.
  intros W. inversion W as [id ps par [N L] F P]; subst. cbn [take]. constructor.
  - rewrite <- firstn_map. split; [apply firstn_NoDup; auto|apply firstn_Forall; auto].
  - rewrite <- firstn_map. apply firstn_Forall; auto.
  - auto.
Qed.
Lemma take_eval inc o k x r y : wf_obj good_names o ->
  ev_items (ev_expr inc limit64 1) (quote_items (take k o)) [] None x = Some (r, y) ->
  erase_obj (MkObj 0 (fst r) (snd r)) = erase_obj (take k o).
Proof.
  intros W E. pose proof (take_wf o k W) as Wk. destruct (N.le_gt_cases (depth_obj (take k o)) 64) as [D|D].
  - destruct (proj2 (quote_gives inc limit64) _ Wk 1 (room64 _ D) x) as (ps & par & y' & E' & V & _).
    rewrite E in E'. injection E' as -> ->. exact V.
  - rewrite (proj2 (quote_deep inc) _ 1 [] None x) in E; [discriminate|lia..].
Qed.

(** The loaded fields are, in order, [==] to the given ones. *)
Definition same_fields (l l' : list pair_t) : Prop :=
  Forall2 (fun p q => fst p = fst q /\ value_eqb (snd p) (snd q) = true) l l'.
Definition same_parent (p q : option obj) : Prop :=
  match p, q with Some a, Some b => obj_eqb a b = true | None, None => True | _, _ => False end.
Lemma erase_same id ps par id' ps' par' : erase_obj (MkObj id ps par) = erase_obj (MkObj id' ps' par') ->
  same_fields ps ps' /\ same_parent par par'.
Proof.
  cbn [erase_obj]. intros E. injection E as E1 E2. split.
  - clear E2. revert ps' E1. induction ps as [|[f v] ps IH]; intros [|[f' v'] ps'] E; try discriminate; constructor.
    + cbn in E. injection E as -> E _. split; auto. apply value_eqb_complete; auto.
    + apply IH. cbn in E. injection E; auto.
  - destruct par, par'; try discriminate; cbn; auto. apply value_eqb_complete. congruence.
Qed.
(** Loading what a crash during [write_to_file] left (unless the file was not touched): if that succeeds at
    all, the result is an empty Obj, or has the first [k] fields of the Obj (and its parent), for some [k],
    followed by nothing, or by the next field if its value is a Null, Bool, Int or Frac - with possibly
    another value. *)
Theorem C35_crash_load fs0 g o path text fs o' : wf_obj good_names o ->
  write_to_string o = Some text -> rust_string text -> crash_in_write fs0 o path fs ->
  canon fs path <> None -> from_file fs g path = Some (OOk o') ->
  fs = fs0 \/ (obj_pairs o' = [] /\ obj_parent o' = None) \/
  exists k kept last, obj_pairs o' = kept ++ last /\ same_fields kept (firstn k (obj_pairs o)) /\
    same_parent (obj_parent o') (obj_parent o) /\
    (last = [] \/ exists f v v', last = [(f, v')] /\ nth_error (obj_pairs o) k = Some (f, v) /\
       match v with VNull | VBool _ | VInt _ | VFrac _ => True | _ => False end).
Proof.
  intros W T S C Cn E. destruct (C35_crash _ _ _ _ _ T C) as [->|(bs & rest & Eb & i & e & F & Rd & _)]; auto. right.
  destruct (from_file_doc fs g path o' E) as (i' & e' & t & its & F' & Rt & R).
  assert (e' = e) by congruence. subst e'. unfold canon in Cn. rewrite F in Cn.
  rewrite write_to_string_fmt in T. injection T as <-.
  assert (P : exists rest', fmt_body 0 o = t ++ rest').
  { rewrite Rd in Rt. unfold read_bytes in Rt. destruct (decode bs) as [t'|] eqn:D; [|discriminate]. injection Rt as ->.
    eapply decode_prefix; eauto. }
  destruct P as (rest' & P).
  assert (Rdb : readable fs path t) by (exists i, e; auto).
  apply (file_ok fs g path its t Rdb R) in E as (x & E).
  unfold meaning, ev_doc in E. apply ebind_some in E as ([ps par] & y & E & E2). 
  apply ebind_some in E2 as (j & z & _ & E2). injection E2 as <- <-. cbn [fst snd obj_pairs obj_parent].
  destruct (cut_written o its t rest' W P R) as [->|(k & [->|(f & v & ex & N & Cl & ->)])].
  - left. injection E as <- <- _. auto.
  - right. apply take_eval in E; auto. destruct o as [id ps0 par0]. cbn [take fst snd obj_pairs obj_parent] in *.
    apply erase_same in E as [E1 E2]. exists k, ps, []. rewrite app_nil_r. auto.
  - right. rewrite items_app in E. apply ebind_some in E as ([ps1 par1] & y1 & E1 & E2). cbn [fst snd] in E2.
    apply take_eval in E1; auto. destruct o as [id ps0 par0]. cbn [take fst snd obj_pairs obj_parent] in *.
    apply erase_same in E1 as [E3 E4]. 
    assert (Lf : legal_field f).
    { inversion W as [? ? ? [_ L] _ _]; subst. unfold legal_names in L. rewrite Forall_forall in L. apply L.
      apply in_map_iff. exists (f, v). split; auto. eapply nth_error_In; eauto. }
    rewrite ev_items_cons, (legal_kind _ Lf) in E2. destruct (mem_str _ _); [discriminate|].
    apply ebind_some in E2 as (v' & y2 & _ & E2). injection E2 as <- <- _.
    exists k, ps1, [(f, v')]. split; [auto|]. split; [auto|]. split; [auto|]. right. exists f, v, v'. split; [auto|].
    split; [auto|]. destruct v; try discriminate Cl; exact I.
Qed.

Lemma utf8_app a b : utf8 (a ++ b) = utf8 a ++ utf8 b.
Proof. apply flat_map_app. Qed.
Lemma crash_prefix fs0 o path t rest : canon fs0 path <> None -> fmt_body 0 o = t ++ rest -> rust_string t ->
  exists fs, crash_in_write fs0 o path fs /\ readable fs path t.
Proof.
  intros C E S. unfold canon in C. destruct (fs_entry fs0 path) as [[i e]|] eqn:F; [|contradiction].
  assert (Eu : utf8 (fmt_body 0 o) = utf8 t ++ utf8 rest) by (rewrite E; apply utf8_app).
  destruct (C35_every_prefix fs0 o path _ i e (utf8 t) (utf8 rest) (write_to_string_fmt o) F Eu) as [K H].
  exists (put_bytes fs0 i (utf8 t)). split; [exact K|]. destruct H as (i' & e' & F' & Rd & _).
  exists i', e'. split; [exact F'|]. split.
  - rewrite Rd. unfold read_bytes. rewrite decode_utf8 by exact S. reflexivity.
  - rewrite (entry_put _ _ _ _ (utf8 t) F) in F'. injection F' as <- <-. exact C.
Qed.
Lemma take_text o k : exists rest, fmt_body 0 o = fmt_body 0 (take k o) ++ rest.
Proof.
  destruct o as [id ps par]. cbn [take]. rewrite !fmt_body_unfold.
  eexists. rewrite <- app_assoc. f_equal. rewrite <- concat_app, <- map_app, firstn_skipn. reflexivity.
Qed.
Lemma take_depth o k : depth_obj (take k o) <= depth_obj o.
Proof.
  destruct o as [id ps par]. cbn [take depth_obj].
  assert (H : forall l : list pair_t, fold_right N.max 0 (map (fun p => match p with (f, v) => depth v end) (firstn k l)) <=
                      fold_right N.max 0 (map (fun p => match p with (f, v) => depth v end) l)).
  { revert k. induction k as [|k IH]; intros [|[f v] l]; cbn [firstn map fold_right]; try lia. specialize (IH l). lia. }
  apply N.add_le_mono_l, N.max_le_compat_l. apply H.
Qed.
(** A crash between two fields is not detected: the first [k] fields are loaded. *)
Theorem C35_crash_between_fields fs0 g o path text k : wf_obj good_names o -> depth_obj o <= 64 ->
  write_to_string o = Some text -> rust_string text -> canon fs0 path <> None ->
  exists fs o', crash_in_write fs0 o path fs /\ from_file fs g path = Some (OOk o') /\
    same_fields (obj_pairs o') (firstn k (obj_pairs o)) /\ same_parent (obj_parent o') (obj_parent o).
Proof.
  intros W D T S C. rewrite write_to_string_fmt in T. injection T as <-. destruct (take_text o k) as (rest & E).
  destruct (crash_prefix fs0 o path _ rest C E) as (fs & K & Rd).
  { unfold rust_string in *. rewrite E in S. apply Forall_app in S. tauto. }
  pose proof (take_wf o k W) as Wk. pose proof (write_doc _ (legal_good _ Wk)) as R.
  destruct (doc_round (include_meaning fs (Some path)) limit64 (take k o) ([], file_sh fs g path) Wk) as (o' & y & Ev & V).
  { apply room64. pose proof (take_depth o k). lia. }
  exists fs, o'. split; [exact K|]. split; [apply (file_ok fs g path _ _ Rd R); eauto|].
  destruct o as [id ps par], o' as [id' ps' par']. cbn [take obj_pairs obj_parent] in *. eapply erase_same. exact V.
Qed.
(** A crash inside a number is not detected either: the number loses its last digits. *)
Theorem C35_crash_inside_number fs0 g path f n id : legal_field f -> rust_string f -> canon fs0 path <> None -> 10 <= n ->
  let o := MkObj id [(f, VInt (Z.of_N n))] None in
  exists fs o', crash_in_write fs0 o path fs /\ from_file fs g path = Some (OOk o') /\
    obj_pairs o' = [(f, VInt (Z.of_N (n / 10)))].
Proof.
  intros Hf Sf C Hn o.
  destruct (exists_last (dec_nonempty n)) as (w & d & E).
  pose proof (dec_digits n) as D. rewrite E in D. apply Forall_app in D as [Dw Dd]. inversion Dd as [|? ? Hd _]; subst.
  pose proof (dec_val_N n) as V. rewrite E, dec_val_app in V. cbn [List.length] in V. change (10 ^ N.of_nat 1) with 10 in V.
  apply digit_range in Hd. assert (Vd : dec_val [d] = d - 48) by (unfold dec_val; cbn [fold_left]; lia).
  assert (Vw : dec_val w = n / 10).
  { apply (N.div_unique n 10 (dec_val w) (d - 48)); lia. }
  destruct w as [|c w]; [cbn in Vw; exfalso; assert (1 <= n / 10) by (apply N.div_le_lower_bound; lia); change (dec_val []) with 0 in Vw; lia|].
  assert (Nt : num_text (c :: w)).
  { inversion Dw as [|? ? H1 H2]; subst. exists c, w. split; [auto|]. split; [apply digit_num; auto|].
    split; [apply digit_range in H1; lia|]. eapply Forall_impl; [|exact H2]. intros a; apply digit_num. }
  assert (Nv : num_value (c :: w) = Some (VInt (Z.of_N (n / 10)))).
  { unfold num_value. rewrite (no_double _ (digits_not_under _ Dw)), (digits_split _ Dw), (digits_id _ Dw). rewrite Vw. reflexivity. }
  destruct (crash_prefix fs0 o path (f ++ c_colon :: [32] ++ c :: w) (d :: [c_nl]) C) as (fs & K & Rd).
  - subst o. rewrite fmt_body_unfold. cbn [map concat fmt]. 
    assert (Z_to_dec (Z.of_N n) = N_to_dec n) as -> by (destruct n; reflexivity). rewrite E.
    repeat (rewrite <- app_assoc; cbn [app]). reflexivity.
  - unfold rust_string in *. apply Forall_app. split; auto. constructor; [left; reflexivity|].
    constructor; [left; reflexivity|]. eapply Forall_impl; [|exact Dw]. intros a Ha. apply digit_range in Ha. left. lia.
  - assert (R : r_doc [(f, Ex (ANum (c :: w)) [])] (f ++ c_colon :: [32] ++ c :: w)).
    { apply one_doc; auto; [|repeat constructor]. apply atom_expr. constructor. exact Nt. }
    eexists fs, _. split; [exact K|]. split.
    + apply (file_ok fs g path _ _ Rd R). rewrite one_meaning by auto. rewrite ev_atom_expr. cbn [ev_atom]. rewrite Nv.
      cbn [elift]. unfold eret. eexists. reflexivity.
    + reflexivity.
Qed.
End P.

(** ** Concrete cases *)
Section Ex.
#[local] Instance ascii : Unicode := {| u_alpha := fun _ => false; u_debug := fun c => [c] |}.
Example C50_ex : exists o1 o, from_str no_fs g0 (lit "a: [1] # b: 2") = Some (OOk o1) /\ obj_len o1 = 1 /\
  from_str no_fs g0 (lit "a: [1] # b: 2" ++ c_nl :: lit "c: a.0") = Some (OOk o) /\ obj_len o = 2.
Proof. eexists _, _. split; [vm_compute; reflexivity|]. split; [reflexivity|]. split; vm_compute; reflexivity. Qed.
(** The hypothesis of [C50_error_stays] is needed: a text that is not a document can be completed. *)
Example C50_ex_needed : exists e o, from_str no_fs g0 (lit "a: {") = Some (OErr e) /\
  from_str no_fs g0 (lit "a: {" ++ c_nl :: lit "}") = Some (OOk o).
Proof. eexists _, _. split; vm_compute; reflexivity. Qed.
Example C35_ex_crash : let o := MkObj 3 [(lit "a", VStr (lit "x")); (lit "b", VInt 120)] None in
  wf_obj good_names o /\ depth_obj o = 1 /\ (exists text, write_to_string o = Some text /\ rust_string text).
Proof.
  split; [|split; [reflexivity|]].
  - constructor.
    + split.
      * cbn. constructor; [|constructor; [|constructor]]; cbn; [intros [H|[]]; discriminate H|tauto].
      * cbn. repeat (constructor; [eexists _, _; split; [reflexivity|]; split; [left; reflexivity|]; split; [constructor|
          cbn; intros H; repeat destruct H as [H|H]; try discriminate H; exact H]|]). constructor.
    + repeat constructor.
    + discriminate.
  - eexists. split; [reflexivity|]. repeat (constructor; [left; reflexivity|]). constructor.
Qed.
End Ex.

Print Assumptions C33_text_determines_obj.
Print Assumptions C36_text_determines_value.
Print Assumptions C50_appending_extends.
Print Assumptions C50_accepted_prefix.
Print Assumptions C50_error_stays.
Print Assumptions C50_fields_stay.
Print Assumptions C50_two_documents.
Print Assumptions C35_crash_load.
Print Assumptions C35_crash_between_fields.
Print Assumptions C35_crash_inside_number.
