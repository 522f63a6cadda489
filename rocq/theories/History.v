(** * History: two loads of the same text in two processes with different pasts.

    The two runs are related step by step: their values are the same up to a one-to-one renaming of
    the ids, which grows as instances are created. *)
From Verif Require Export EvalProofs.
From Coq Require String.
Import String.StringSyntax.
Open Scope N_scope.

(** [base1], [base2]: the next ids when the loads began. *)
Section States.
Variables base1 base2 : N.
(** Is the correspondence one-to-one?  (Not if the second text creates an instance once where the first creates it
    repeatedly, Relate.v.) *)
Variable strict : Prop.

(** A correspondence between ids of the first and of the second process. *)
Definition world := list (N * N).
Definition one_to_one (W : world) : Prop :=
  forall i j i' j', In (i, j) W -> In (i', j') W -> (i = i' <-> j = j').

(** [v] and [w] are the same except that the instances in [v] have the ids that correspond to those
    of the instances in [w]; Arrs and Tups are newer than the beginning of the loads. *)
Section Corr.
Variable W : world.
Inductive corr : value -> value -> Prop :=
| co_null : corr VNull VNull
| co_bool b : corr (VBool b) (VBool b)
| co_int z : corr (VInt z) (VInt z)
| co_frac q : corr (VFrac q) (VFrac q)
| co_str s : corr (VStr s) (VStr s)
| co_arr i j t vs ws : In (i, j) W -> base1 <= i -> base2 <= j -> Forall2 corr vs ws -> corr (VArr (MkArr i t vs)) (VArr (MkArr j t ws))
| co_tup i j ts vs ws : In (i, j) W -> base1 <= i -> base2 <= j -> Forall2 corr vs ws -> corr (VTup (MkTup i ts vs)) (VTup (MkTup j ts ws))
| co_obj o p : corr_obj o p -> corr (VObj o) (VObj p)
with corr_obj : obj -> obj -> Prop :=
| co_root i j ps qs : In (i, j) W ->
    Forall2 (fun x y => fst x = fst y /\ corr (snd x) (snd y)) ps qs ->
    corr_obj (MkObj i ps None) (MkObj j qs None)
| co_child i j ps qs p q : In (i, j) W ->
    Forall2 (fun x y => fst x = fst y /\ corr (snd x) (snd y)) ps qs -> corr_obj p q ->
    corr_obj (MkObj i ps (Some p)) (MkObj j qs (Some q)).
Definition corr_pairs (ps qs : list (str * value)) : Prop :=
  Forall2 (fun x y => fst x = fst y /\ corr (snd x) (snd y)) ps qs.
End Corr.

Lemma corr_mono_both W W' : incl W W' ->
  (forall v w, corr W v w -> corr W' v w) /\ (forall o p, corr_obj W o p -> corr_obj W' o p).
Proof.
  intros I.
  assert (L : forall vs, Forall (fun v => forall w, corr W v w -> corr W' v w) vs ->
    forall ws, Forall2 (corr W) vs ws -> Forall2 (corr W') vs ws).
  { intros vs F ws H. induction H; constructor; inversion F; subst; auto. }
  assert (L2 : forall ps : list (str * value), Forall (fun v => forall w, corr W v w -> corr W' v w) (map snd ps) ->
    forall qs, corr_pairs W ps qs -> corr_pairs W' ps qs).
  { intros ps F qs H. induction H as [|x y ps qs [E H] _ IH]; constructor; inversion F; subst; auto. apply IH; auto. }
  apply value_obj_ind2; try (intros; match goal with H : corr W _ _ |- _ => inversion H; subst end; constructor; auto; fail).
  intros id ps par Hps Hpar p H. inversion H; subst; constructor; auto; apply L2; auto.
Qed.
Lemma corr_mono W W' v w : incl W W' -> corr W v w -> corr W' v w.
Proof. intros I. apply (corr_mono_both W W' I). Qed.
Lemma corr_obj_mono W W' v w : incl W W' -> corr_obj W v w -> corr_obj W' v w.
Proof. intros I. apply (corr_mono_both W W' I). Qed.
Lemma corr_pairs_mono W W' ps qs : incl W W' -> corr_pairs W ps qs -> corr_pairs W' ps qs.
Proof. intros I H. induction H as [|x y ps qs [E H] _ IH]; constructor; auto. split; auto. eapply corr_mono; eauto. Qed.
Lemma corr_list_mono W W' vs ws : incl W W' -> Forall2 (corr W) vs ws -> Forall2 (corr W') vs ws.
Proof. intros I H. induction H; constructor; auto. eapply corr_mono; eauto. Qed.

Lemma corr_erase_both W :
  (forall v w, corr W v w -> erase v = erase w) /\ (forall o p, corr_obj W o p -> erase_obj o = erase_obj p).
Proof.
  assert (L : forall vs, Forall (fun v => forall w, corr W v w -> erase v = erase w) vs ->
    forall ws, Forall2 (corr W) vs ws -> map erase vs = map erase ws).
  { intros vs F ws H. induction H; cbn [map]; auto. inversion F; subst. f_equal; auto. }
  assert (L2 : forall ps : list (str * value), Forall (fun v => forall w, corr W v w -> erase v = erase w) (map snd ps) ->
    forall qs, corr_pairs W ps qs -> map (fun p => match p with (f, v) => (f, erase v) end) ps = map (fun p => match p with (f, v) => (f, erase v) end) qs).
  { intros ps F qs H. induction H as [|[f x] [g y] ps qs [E H] _ IH]; cbn [map]; auto. cbn [fst snd] in *. inversion F; subst.
    rewrite IH by auto. f_equal. f_equal. auto. }
  apply value_obj_ind2; try (intros; match goal with H : corr W _ _ |- _ => inversion H; subst end; cbn [erase]; auto; fail).
  - intros id t vs F w H. inversion H; subst. cbn [erase]. rewrite (L vs F ws) by auto. auto.
  - intros id t vs F w H. inversion H; subst. cbn [erase]. rewrite (L vs F ws) by auto. auto.
  - intros o Ho w H. inversion H; subst. cbn [erase]. rewrite (Ho p) by auto. auto.
  - intros id ps par Hps Hpar p H. inversion H; subst; cbn [erase_obj]; rewrite (L2 ps Hps qs) by auto; auto.
    rewrite (Hpar _ eq_refl q) by auto. auto.
Qed.
Lemma corr_erase W v w : corr W v w -> erase v = erase w.
Proof. apply corr_erase_both. Qed.
Lemma corr_type W v w : corr W v w -> get_type v = get_type w.
Proof. intros H. rewrite <- (get_type_erase v), <- (get_type_erase w), (corr_erase _ _ _ H). auto. Qed.

(** ** States

    Instances in a load's values are newer than its beginning, except sentinels. *)
Definition fresh_or_sent (b : N) (g : gstate) (i : N) : Prop :=
  (b <= i \/ exists k, g_sent g k = Some i) /\ ~ In i (g_taken g).
Definition ids_ok (W : world) (g1 g2 : gstate) : Prop :=
  (g_ok g1 /\ base1 <= g_next g1) /\ (g_ok g2 /\ base2 <= g_next g2) /\ (strict -> one_to_one W) /\
  forall i j, In (i, j) W -> (i < g_next g1 /\ fresh_or_sent base1 g1 i) /\ (j < g_next g2 /\ fresh_or_sent base2 g2 j) /\
    forall k, g_sent g1 k = Some i <-> g_sent g2 k = Some j.
Definition sh_corr (W : world) (h1 h2 : shared) : Prop :=
  corr_pairs W (sh_vals h1) (sh_vals h2) /\ sh_open h1 = sh_open h2 /\ ids_ok W (sh_g h1) (sh_g h2).
Definition srel (W : world) (s1 s2 : pstate) : Prop :=
  s_file s1 = s_file s2 /\ s_rest s1 = s_rest s2 /\ s_line s1 = s_line s2 /\ s_col s1 = s_col s2 /\
  corr_pairs W (s_globals s1) (s_globals s2) /\ sh_corr W (s_sh s1) (s_sh s2).

Definition orel {A B} (W : world) (Q : world -> A -> A -> Prop) (S : world -> B -> B -> Prop)
  (r1 r2 : outcome A * B) : Prop :=
  match r1, r2 with
  | (Ok a1, t1), (Ok a2, t2) => exists W', incl W W' /\ S W' t1 t2 /\ Q W' a1 a2
  | (Err e1, _), (Err e2, _) => e1 = e2
  | (Panic, _), (Panic, _) => True
  | (NoFuel, _), (NoFuel, _) => True
  | _, _ => False
  end.
Definition rel {A} (W : world) (m1 m2 : M A) (Q : world -> A -> A -> Prop) (s1 s2 : pstate) : Prop :=
  orel W Q srel (m1 s1) (m2 s2).

Lemma rel_bind {A B} W (m1 m2 : M A) (f1 f2 : A -> M B) Q1 Q s1 s2 :
  rel W m1 m2 Q1 s1 s2 ->
  (forall W' a1 a2 t1 t2, incl W W' -> srel W' t1 t2 -> Q1 W' a1 a2 -> rel W' (f1 a1) (f2 a2) Q t1 t2) ->
  rel W (bind m1 f1) (bind m2 f2) Q s1 s2.
Proof.
  unfold rel, orel, bind. intros H K. destruct (m1 s1) as [[a1|e1| |] t1], (m2 s2) as [[a2|e2| |] t2]; try contradiction; auto.
  destruct H as (W' & I & S & Hq). specialize (K W' a1 a2 t1 t2 I S Hq).
  destruct (f1 a1 t1) as [[b1|e1| |] u1], (f2 a2 t2) as [[b2|e2| |] u2]; try contradiction; auto.
  destruct K as (W'' & I' & S' & Hq'). exists W''. split; [eapply incl_tran; eauto|]. auto.
Qed.
Lemma rel_ret {A} W (a1 a2 : A) (Q : world -> A -> A -> Prop) s1 s2 : srel W s1 s2 -> Q W a1 a2 -> rel W (ret a1) (ret a2) Q s1 s2.
Proof. intros S H. exists W. split; [apply incl_refl|]. auto. Qed.
Lemma rel_fail {A} W k k' (Q : world -> A -> A -> Prop) s1 s2 : srel W s1 s2 -> k = k' -> rel W (fail k) (fail k') Q s1 s2.
Proof. intros (E & _) <-. unfold rel, orel, fail. rewrite E. auto. Qed.
Lemma rel_raise {A} W e e' (Q : world -> A -> A -> Prop) s1 s2 : e = e' -> rel W (raise e) (raise e') Q s1 s2.
Proof. auto. Qed.
Lemma rel_panic {A} W (Q : world -> A -> A -> Prop) s1 s2 : rel W panic panic Q s1 s2.
Proof. exact I. Qed.
Lemma rel_nofuel {A} W (Q : world -> A -> A -> Prop) s1 s2 : rel W nofuel nofuel Q s1 s2.
Proof. exact I. Qed.
Lemma rel_mono {A} W (m1 m2 : M A) (Q Q' : world -> A -> A -> Prop) s1 s2 :
  rel W m1 m2 Q s1 s2 -> (forall W' a b, incl W W' -> Q W' a b -> Q' W' a b) -> rel W m1 m2 Q' s1 s2.
Proof.
  unfold rel, orel. intros H K. destruct (m1 s1) as [[a1|e1| |] t1], (m2 s2) as [[a2|e2| |] t2]; auto.
  destruct H as (W' & ? & ? & ?). exists W'. auto.
Qed.

(** Steps that only look at or move the stream: the same result. *)
Definition eqQ {A} : world -> A -> A -> Prop := fun _ a b => a = b.
Definition plain {A} (m : M A) : Prop := forall W s1 s2, srel W s1 s2 -> rel W m m eqQ s1 s2.

Ltac stream H :=
  intros W [f1 r1 l1 k1 g1 h1] [f2 r2 l2 k2 g2 h2] H; destruct H as (E1 & E2 & E3 & E4 & E5 & E6);
  cbn [s_file s_rest s_line s_col s_globals s_sh] in E1, E2, E3, E4, E5, E6; subst f2 r2 l2 k2; unfold rel, orel, eqQ.
Ltac sdone E5 E6 := eexists; split; [apply incl_refl|]; split; [exact (conj eq_refl (conj eq_refl (conj eq_refl (conj eq_refl (conj E5 E6)))))|reflexivity].

Lemma plain_ret {A} (a : A) : plain (ret a).
Proof. intros W s1 s2 S. apply rel_ret; auto. reflexivity. Qed.
Lemma plain_fail {A} k : plain (@fail A k).
Proof. intros W s1 s2 S. apply rel_fail; auto. Qed.
Lemma plain_raise {A} e : plain (@raise A e).
Proof. intros W s1 s2 S. apply rel_raise; auto. Qed.
Lemma plain_panic {A} : plain (@panic A).
Proof. intros W s1 s2 S. apply rel_panic. Qed.
Lemma plain_bind {A B} (m : M A) (f : A -> M B) : plain m -> (forall a, plain (f a)) -> plain (bind m f).
Proof.
  intros Hm Hf W s1 s2 S. eapply rel_bind; [apply Hm; exact S|]. intros W' a1 a2 t1 t2 I S' <-. apply Hf. auto.
Qed.
Lemma plain_peek : plain peek. Proof. stream H. unfold peek; cbn [s_rest]. sdone E5 E6. Qed.
Lemma plain_next : plain next.
Proof.
  stream H. unfold next; cbn [s_rest s_line s_col]. destruct r1 as [|c r]; [sdone E5 E6|].
  destruct (adv c l1 k1) as [l' k']. unfold set_stream; cbn [s_file s_globals s_sh]. sdone E5 E6.
Qed.
Lemma plain_getline : plain getline. Proof. stream H. cbn. sdone E5 E6. Qed.
Lemma plain_getcol : plain getcol. Proof. stream H. cbn. sdone E5 E6. Qed.
Lemma plain_getpos : plain getpos. Proof. stream H. cbn. sdone E5 E6. Qed.
Lemma plain_getfile : plain getfile. Proof. stream H. cbn. sdone E5 E6. Qed.
Lemma plain_unwrap {A} (o : option A) : plain (unwrap o).
Proof. destruct o; [apply plain_ret|apply plain_panic]. Qed.
Lemma plain_unwrap_o {A} (o : ores A) : plain (unwrap_o o).
Proof. destruct o; [apply plain_ret|apply plain_panic]. Qed.
Lemma plain_peek_unwrap : plain peek_unwrap.
Proof. apply plain_bind; [apply plain_peek|intros; apply plain_unwrap]. Qed.
Lemma plain_next_unwrap : plain next_unwrap.
Proof. apply plain_bind; [apply plain_next|intros; apply plain_unwrap]. Qed.
Lemma plain_assert b : plain (assert_ b).
Proof. destruct b; [apply plain_ret|apply plain_panic]. Qed.
Lemma plain_col_minus_1 : plain col_minus_1.
Proof. stream H. unfold col_minus_1; cbn [s_col]. destruct (k1 =? 0); [exact I|sdone E5 E6]. Qed.
Lemma plain_scan {A} (f : str -> N -> N -> A * (str * N * N)) :
  plain (fun s => let '(x, (r, l, k)) := f (s_rest s) (s_line s) (s_col s) in (Ok x, set_stream s r l k)).
Proof.
  stream H. cbn [s_rest s_line s_col]. destruct (f r1 l1 k1) as [x [[r l] k]]. unfold set_stream; cbn [s_file s_globals s_sh]. sdone E5 E6.
Qed.
Lemma plain_find_char : plain find_char.
Proof. exact (plain_scan (fun r l k => find_char_l r l k false)). Qed.
Lemma plain_parse_bigint s : plain (parse_bigint s).
Proof. unfold parse_bigint. destruct s; [apply plain_raise|]. destruct (forallb _ _); [apply plain_ret|apply plain_raise]. Qed.

Create HintDb plain.
#[local] Hint Resolve plain_ret plain_fail plain_raise plain_panic plain_peek plain_next plain_getline plain_getcol
  plain_getpos plain_getfile plain_unwrap plain_unwrap_o plain_peek_unwrap plain_next_unwrap plain_assert
  plain_col_minus_1 plain_find_char plain_parse_bigint : plain.
Ltac plains := repeat first
  [ apply plain_bind; [|intros ?]
  | match goal with |- plain (match ?x with _ => _ end) => destruct x end
  | solve [auto with plain] ].

Lemma plain_parse_str : plain parse_str.
Proof.
  unfold parse_str. do 2 (apply plain_bind; [auto with plain|intros ?]).
  apply plain_bind; [exact (plain_scan (fun r l k => scan_str r l k [] false))|intros ?]. plains.
Qed.
Lemma plain_parse_numeric l k : plain (parse_numeric l k).
Proof.
  unfold parse_numeric.
  apply plain_bind; [exact (plain_scan (fun r l k => scan_numeric r l k [] [] false false))|intros ?]. plains.
Qed.
Section U.
Context `{U : Unicode}.
Lemma plain_parse_field l k : plain (parse_field l k).
Proof.
  unfold parse_field. apply plain_bind; [auto with plain|intros ch]. cbv zeta.
  apply plain_bind; [plains|intros field].
  apply plain_bind; [exact (plain_scan (fun r l k => scan_field r l k field true))|intros ?]. plains.
Qed.
Lemma plain_check_value_end b : plain (check_value_end b).
Proof. unfold check_value_end. plains. Qed.
End U.
#[local] Hint Resolve plain_parse_str plain_parse_numeric plain_parse_field plain_check_value_end : plain.

(** ** Ids *)
Lemma fos_bump b g i : i < g_next g -> fresh_or_sent b g i -> fresh_or_sent b (bump g) i.
Proof.
  intros L [H N]. destruct (old_bump g i L) as (_ & S & T). split; [|rewrite T; auto].
  destruct H as [H|[k H]]; [left; auto|]. right. exists k. apply S. auto.
Qed.
Lemma ids_bump W g1 g2 : ids_ok W g1 g2 -> ids_ok ((g_next g1, g_next g2) :: W) (bump g1) (bump g2).
Proof.
  intros ([G1 L1] & [G2 L2] & O & B). pose proof (next_bump g1) as N1. pose proof (next_bump g2) as N2.
  destruct (own_bump g1 G1) as (_ & S1 & T1). destruct (own_bump g2 G2) as (_ & S2 & T2).
  split; [split; [apply ok_bump; auto|lia]|]. split; [split; [apply ok_bump; auto|lia]|]. split.
  - intros st i j i' j' [E|H] [E'|H'].
    + injection E as <- <-. injection E' as <- <-. tauto.
    + injection E as <- <-. apply B in H' as ([? _] & [? _] & _). split; intros X; lia.
    + injection E' as <- <-. apply B in H as ([? _] & [? _] & _). split; intros X; lia.
    + eapply (O st); eauto.
  - intros i j [E|H].
    + injection E as <- <-. split; [split; [lia|split; [left; auto|auto]]|]. split; [split; [lia|split; [left; auto|auto]]|].
      intros k. split; intros H; exfalso; [apply (S1 k); auto|apply (S2 k); auto].
    + apply B in H as ([? ?] & [? ?] & K).
      split; [split; [lia|apply fos_bump; auto]|]. split; [split; [lia|apply fos_bump; auto]|]. intros k.
      destruct (old_bump g1 i) as (_ & R1 & _); auto. destruct (old_bump g2 j) as (_ & R2 & _); auto.
      rewrite R1, R2. auto.
Qed.
Definition inQ : world -> N -> N -> Prop := fun W i j => In (i, j) W /\ base1 <= i /\ base2 <= j.
Lemma rel_gen_id W s1 s2 : srel W s1 s2 -> rel W gen_id gen_id inQ s1 s2.
Proof.
  intros (E1 & E2 & E3 & E4 & E5 & E6 & E7 & E8).
  assert (I : incl W ((g_next (sh_g (s_sh s1)), g_next (sh_g (s_sh s2))) :: W)) by apply incl_tl, incl_refl.
  exists ((g_next (sh_g (s_sh s1)), g_next (sh_g (s_sh s2))) :: W).
  split; [exact I|]. split; [|split; [left; reflexivity|destruct E8 as ([_ ?] & [_ ?] & _); auto]].
  unfold srel, sh_corr, set_sh, set_g; cbn [s_file s_rest s_line s_col s_globals s_sh sh_vals sh_open sh_g].
  repeat (split; [solve [auto | eapply corr_pairs_mono; eauto]|]). apply (ids_bump W); auto.
Qed.
Lemma rel_new_obj W ps qs par par' s1 s2 : srel W s1 s2 -> corr_pairs W ps qs ->
  match par, par' with Some p, Some q => corr_obj W p q | None, None => True | _, _ => False end ->
  rel W (new_obj ps par) (new_obj qs par') corr_obj s1 s2.
Proof.
  intros S H P. eapply rel_bind; [apply rel_gen_id; auto|]. intros W' i j t1 t2 I S' (Q & L1 & L2). apply rel_ret; auto.
  unfold obj_from_pairs_unchecked. destruct par, par'; try contradiction; constructor; auto.
  1, 3: eapply corr_pairs_mono; eauto. eapply corr_obj_mono; eauto.
Qed.
Lemma rel_new_arr W vs ws t s1 s2 : srel W s1 s2 -> Forall2 (corr W) vs ws ->
  rel W (new_arr vs t) (new_arr ws t) (fun W a b => corr W (VArr a) (VArr b)) s1 s2.
Proof.
  intros S H. eapply rel_bind; [apply rel_gen_id; auto|]. intros W' i j t1 t2 I S' (Q & L1 & L2). apply rel_ret; auto.
  constructor; auto. eapply corr_list_mono; eauto.
Qed.
Lemma corr_types W vs ws : Forall2 (corr W) vs ws -> map get_type vs = map get_type ws.
Proof. intros H. induction H; cbn [map]; f_equal; auto. eapply corr_type; eauto. Qed.
Lemma rel_new_tup W vs ws s1 s2 : srel W s1 s2 -> Forall2 (corr W) vs ws ->
  rel W (new_tup vs) (new_tup ws) (fun W a b => corr W (VTup a) (VTup b)) s1 s2.
Proof.
  intros S H. eapply rel_bind; [apply rel_gen_id; auto|]. intros W' i j t1 t2 I S' (Q & L1 & L2). apply rel_ret; auto.
  unfold tup_from_values. rewrite (corr_types _ _ _ H). constructor; auto. eapply corr_list_mono; eauto.
Qed.

(** ** Sentinels *)
Definition same_kind (k k' : inc_ty) : bool :=
  match k, k' with IObj, IObj | IStr, IStr | IArr, IArr | ITup, ITup => true | _, _ => false end.
(** the sentinel, created if need be *)
Definition g_force (g : gstate) (k : inc_ty) : gstate :=
  match g_sent g k with Some _ => g | None => g_new_sent g k end.
Definition g_force_id (g : gstate) (k : inc_ty) : N := match g_sent g k with Some i => i | None => g_next g end.
Lemma sentinel_force k s : sentinel k s =
  (Ok (obj_empty (g_force_id (sh_g (s_sh s)) k)), set_sh s (set_g (s_sh s) (g_force (sh_g (s_sh s)) k))).
Proof.
  unfold sentinel, g_force, g_force_id, gen_id. destruct (g_sent (sh_g (s_sh s)) k) eqn:E; [|reflexivity].
  destruct s as [? ? ? ? ? []]; reflexivity.
Qed.
Lemma force_ok g k : g_ok g -> g_ok (g_force g k).
Proof. intros G. unfold g_force. destruct (g_sent g k) eqn:E; auto. apply ok_sent; auto. Qed.
Lemma kind_refl k : kind_eqb k k = true.
Proof. destruct k; auto. Qed.
Lemma force_sent g k : g_ok g -> g_sent (g_force g k) k = Some (g_force_id g k).
Proof.
  intros G. unfold g_force, g_force_id. destruct (g_sent g k) eqn:E; auto.
  destruct (sent_new_sent g k (g_next g)) as (_ & S & _); auto; [lia|]. apply S. rewrite kind_refl. auto.
Qed.
Lemma force_next g k : g_next g <= g_next (g_force g k).
Proof. unfold g_force. destruct (g_sent g k); [lia|]. pose proof (next_new_sent g k). lia. Qed.
Lemma force_old g k i k' : g_ok g -> i < g_next g -> (g_sent (g_force g k) k' = Some i <-> g_sent g k' = Some i).
Proof.
  intros G L. unfold g_force. destruct (g_sent g k) eqn:E; [tauto|].
  destruct (sent_new_sent g k i) as (_ & S & _); auto; [lia|]. rewrite S.
  destruct (kind_eqb k k') eqn:K; [|tauto]. apply kind_eqb_eq in K. subst k'. rewrite E. split; [lia|discriminate].
Qed.
Lemma force_taken g k i : g_ok g -> i < g_next g -> (In i (g_taken (g_force g k)) <-> In i (g_taken g)).
Proof.
  intros G L. unfold g_force. destruct (g_sent g k) eqn:E; [tauto|].
  destruct (sent_new_sent g k i) as (_ & _ & T); auto. lia.
Qed.
Lemma fos_force b g k i : g_ok g -> i < g_next g -> fresh_or_sent b g i -> fresh_or_sent b (g_force g k) i.
Proof.
  intros G L [H N]. split; [|rewrite force_taken; auto].
  destruct H as [H|[k' H]]; [left; auto|]. right. exists k'. rewrite force_old; auto.
Qed.
Lemma sent_not_taken g k i : g_ok g -> g_sent g k = Some i -> ~ In i (g_taken g).
Proof. intros (_ & _ & C) H I. apply C in I as [_ I]. apply (I k); auto. Qed.
Lemma ids_force W g1 g2 k : ids_ok W g1 g2 ->
  exists W', incl W W' /\ ids_ok W' (g_force g1 k) (g_force g2 k) /\ In (g_force_id g1 k, g_force_id g2 k) W'.
Proof.
  intros ([G1 L1] & [G2 L2] & O & B). exists ((g_force_id g1 k, g_force_id g2 k) :: W).
  split; [apply incl_tl, incl_refl|]. split; [|left; reflexivity].
  pose proof (force_ok g1 k G1) as F1. pose proof (force_ok g2 k G2) as F2.
  pose proof (force_next g1 k) as N1. pose proof (force_next g2 k) as N2.
  assert (B' : forall i j, In (i, j) W -> (i < g_next (g_force g1 k) /\ fresh_or_sent base1 (g_force g1 k) i) /\
    (j < g_next (g_force g2 k) /\ fresh_or_sent base2 (g_force g2 k) j) /\
    forall k', g_sent (g_force g1 k) k' = Some i <-> g_sent (g_force g2 k) k' = Some j).
  { intros i j H. apply B in H as ([M1 P1] & [M2 P2] & K).
    split; [split; [lia|apply fos_force; auto]|]. split; [split; [lia|apply fos_force; auto]|]. intros k'. rewrite !force_old by auto. auto. }
  split; [split; [auto|lia]|]. split; [split; [auto|lia]|].
  assert (S : forall i j, In (i, j) W -> (g_force_id g1 k = i <-> g_force_id g2 k = j)).
  { intros i j H. apply B' in H as (_ & _ & K). specialize (K k). rewrite !force_sent in K by auto.
    split; intros E; [assert (E' : Some (g_force_id g1 k) = Some i) by congruence; apply K in E'|
                      assert (E' : Some (g_force_id g2 k) = Some j) by congruence; apply K in E']; congruence. }
  split.
  - intros st i j i' j' [E|H] [E'|H'].
    + injection E as <- <-. injection E' as <- <-. tauto.
    + injection E as <- <-. apply S; auto.
    + injection E' as <- <-. specialize (S _ _ H). split; intros X; symmetry; apply S; auto.
    + eapply (O st); eauto.
  - intros i j [E|H]; [|auto]. injection E as <- <-.
    pose proof (force_sent g1 k G1) as X1. pose proof (force_sent g2 k G2) as X2.
    split; [split; [eapply (proj1 F1); eauto|split; [right; eauto|eapply sent_not_taken; eauto]]|].
    split; [split; [eapply (proj1 F2); eauto|split; [right; eauto|eapply sent_not_taken; eauto]]|]. intros k'. split; intros X.
    + replace k' with k; [auto|]. eapply (proj1 (proj2 F1)); eauto.
    + replace k' with k; [auto|]. eapply (proj1 (proj2 F2)); eauto.
Qed.
(** The result of [sentinel k] is the sentinel of kind [k] in the state it leaves. *)
Lemma rel_sentinel {A} W k (f1 f2 : obj -> M A) Q s1 s2 : srel W s1 s2 ->
  (forall W' i j t1 t2, incl W W' -> srel W' t1 t2 -> In (i, j) W' ->
     g_sent (sh_g (s_sh t1)) k = Some i -> g_sent (sh_g (s_sh t2)) k = Some j ->
     rel W' (f1 (obj_empty i)) (f2 (obj_empty j)) Q t1 t2) ->
  rel W (bind (sentinel k) f1) (bind (sentinel k) f2) Q s1 s2.
Proof.
  intros (E1 & E2 & E3 & E4 & E5 & E6 & E7 & E8) K.
  destruct (ids_force W _ _ k E8) as (W' & I & O & Hin).
  unfold rel, orel, bind. rewrite !sentinel_force.
  match goal with |- context[f1 _ ?t] => set (t1 := t) end. match goal with |- context[f2 _ ?t] => set (t2 := t) end.
  assert (S : srel W' t1 t2).
  { subst t1 t2. unfold srel, sh_corr, set_sh, set_g; cbn [s_file s_rest s_line s_col s_globals s_sh sh_vals sh_open sh_g].
    repeat (split; [solve [auto | eapply corr_pairs_mono; eauto]|]). auto. }
  specialize (K W' _ _ t1 t2 I S Hin (force_sent _ _ (proj1 (proj1 E8))) (force_sent _ _ (proj1 (proj1 (proj2 E8))))). unfold rel, orel in K.
  destruct (f1 _ t1) as [[b1|e1| |] u1], (f2 _ t2) as [[b2|e2| |] u2]; try contradiction; auto.
  destruct K as (W'' & I' & S' & Hq'). exists W''. split; [eapply incl_tran; eauto|]. auto.
Qed.

Lemma corr_obj_id W o p : corr_obj W o p -> In (obj_id o, obj_id p) W.
Proof. intros H. inversion H; subst; auto. Qed.
Lemma rel_include_token W v w l k s1 s2 : srel W s1 s2 -> corr W v w ->
  rel W (include_token v l k) (include_token w l k) eqQ s1 s2.
Proof.
  intros S C. unfold include_token. destruct C; try (apply rel_fail; auto; fail).
  - apply rel_ret; auto. reflexivity.
  - apply corr_obj_id in H.
    assert (E : forall kd W' i j t1 t2, incl W W' -> srel W' t1 t2 -> g_sent (sh_g (s_sh t1)) kd = Some i ->
      g_sent (sh_g (s_sh t2)) kd = Some j -> obj_ptr_eq o (obj_empty i) = obj_ptr_eq p (obj_empty j)).
    { intros kd W' i j t1 t2 I (_ & _ & _ & _ & _ & _ & _ & _ & _ & _ & B) X1 X2. apply I in H. apply B in H as (_ & _ & K).
      specialize (K kd). unfold obj_ptr_eq, obj_empty, obj_id at 2 4. apply eq_true_iff_eq. rewrite !N.eqb_eq.
      split; intros X.
      - assert (X' : g_sent (sh_g (s_sh t1)) kd = Some (obj_id o)) by congruence. apply K in X'. congruence.
      - assert (X' : g_sent (sh_g (s_sh t2)) kd = Some (obj_id p)) by congruence. apply K in X'. congruence. }
    apply rel_sentinel; auto. intros W1 i1 j1 t1 u1 I1 S1 P1 A1 B1. rewrite (E IObj W1 i1 j1 t1 u1) by auto.
    destruct (obj_ptr_eq p (obj_empty j1)); [apply rel_ret; auto; reflexivity|].
    apply rel_sentinel; auto. intros W2 i2 j2 t2 u2 I2 S2 P2 A2 B2.
    assert (J2 : incl W W2) by (eapply incl_tran; eauto). rewrite (E IStr W2 i2 j2 t2 u2) by auto.
    destruct (obj_ptr_eq p (obj_empty j2)); [apply rel_ret; auto; reflexivity|].
    apply rel_sentinel; auto. intros W3 i3 j3 t3 u3 I3 S3 P3 A3 B3.
    assert (J3 : incl W W3) by (eapply incl_tran; eauto). rewrite (E IArr W3 i3 j3 t3 u3) by auto.
    destruct (obj_ptr_eq p (obj_empty j3)); [apply rel_ret; auto; reflexivity|].
    apply rel_sentinel; auto. intros W4 i4 j4 t4 u4 I4 S4 P4 A4 B4.
    assert (J4 : incl W W4) by (eapply incl_tran; eauto). rewrite (E ITup W4 i4 j4 t4 u4) by auto.
    destruct (obj_ptr_eq p (obj_empty j4)); [apply rel_ret; auto; reflexivity|].
    apply rel_fail; auto.
Qed.

(** ** Operators *)
Lemma plain_rel {A} (m : M A) W (Q : world -> A -> A -> Prop) s1 s2 : plain m -> srel W s1 s2 ->
  (forall W' a, incl W W' -> Q W' a a) -> rel W m m Q s1 s2.
Proof. intros P S K. eapply rel_mono; [apply P; exact S|]. intros W' a b I <-. auto. Qed.
Lemma rel_bind_plain {A B} W (m : M A) (f1 f2 : A -> M B) Q s1 s2 : plain m -> srel W s1 s2 ->
  (forall W' a t1 t2, incl W W' -> srel W' t1 t2 -> rel W' (f1 a) (f2 a) Q t1 t2) ->
  rel W (bind m f1) (bind m f2) Q s1 s2.
Proof. intros P S K. eapply rel_bind; [apply P; exact S|]. intros W' a b t1 t2 I S' <-. auto. Qed.
Lemma corr_get_int W v w : corr W v w -> get_int v = get_int w.
Proof. intros C. destruct C; reflexivity. Qed.
Lemma corr_get_frac W v w : corr W v w -> get_frac v = get_frac w.
Proof. intros C. destruct C; reflexivity. Qed.
Lemma corr_get_str W v w : corr W v w -> get_str v = get_str w.
Proof. intros C. destruct C; reflexivity. Qed.
Lemma rel_unary W v w op l k s1 s2 : srel W s1 s2 -> corr W v w ->
  rel W (unary_op_on_value v op l k) (unary_op_on_value w op l k) corr s1 s2.
Proof.
  intros S C. unfold unary_op_on_value. rewrite (corr_type _ _ _ C), (corr_get_int _ _ _ C), (corr_get_frac _ _ _ C).
  destruct op, (get_type w); try (apply rel_fail; auto; fail); try (apply rel_ret; auto; fail).
  - apply rel_bind_plain; auto with plain. intros. apply rel_ret; auto. constructor.
  - apply rel_bind_plain; auto with plain. intros. apply rel_ret; auto. constructor.
Qed.
Lemma corr_get_arr W v w : corr W v w ->
  match get_arr v, get_arr w with
  | OOk a, OOk b => corr W (VArr a) (VArr b)
  | OErr e, OErr f => True
  | _, _ => False
  end.
Proof. intros C. destruct C; cbn [get_arr]; auto. constructor; auto. Qed.
Lemma corr_arr_values W a b : corr W (VArr a) (VArr b) -> Forall2 (corr W) (arr_values a) (arr_values b).
Proof. intros C. inversion C; subst. auto. Qed.
Lemma rel_unwrap_arr {B} W v w (f1 f2 : arr -> M B) Q s1 s2 : srel W s1 s2 -> corr W v w ->
  (forall W' a b t1 t2, incl W W' -> srel W' t1 t2 -> corr W' (VArr a) (VArr b) -> rel W' (f1 a) (f2 b) Q t1 t2) ->
  rel W (bind (unwrap_o (get_arr v)) f1) (bind (unwrap_o (get_arr w)) f2) Q s1 s2.
Proof.
  intros S C K. apply corr_get_arr in C. destruct (get_arr v), (get_arr w); try contradiction.
  - apply K; auto. apply incl_refl.
  - exact I.
Qed.
Definition quadQ : world -> value * ty * value * ty -> value * ty * value * ty -> Prop :=
  fun W x y => match x, y with (v1, t1, v2, t2), (w1, u1, w2, u2) => corr W v1 w1 /\ t1 = u1 /\ corr W v2 w2 /\ t2 = u2 end.
Lemma rel_binary W v1 w1 v2 w2 op l k s1 s2 : srel W s1 s2 -> corr W v1 w1 -> corr W v2 w2 ->
  rel W (binary_op_on_values v1 v2 op l k) (binary_op_on_values w1 w2 op l k) corr s1 s2.
Proof.
  intros S C1 C2. unfold binary_op_on_values.
  rewrite (corr_type _ _ _ C1), (corr_type _ _ _ C2), (corr_get_int _ _ _ C1), (corr_get_int _ _ _ C2).
  eapply (rel_bind W _ _ _ _ quadQ).
  - destruct (ty_eqb (get_type w1) TInt && ty_eqb (get_type w2) TFrac); [|destruct (ty_eqb (get_type w1) TFrac && ty_eqb (get_type w2) TInt)].
    + apply rel_bind_plain; auto with plain. intros W1 z t1 t2 I1 S1. apply rel_bind_plain; auto with plain. intros W2 q u1 u2 I2 S2.
      apply rel_ret; auto. cbn [quadQ]. repeat split; [constructor|]. eapply corr_mono; [|eauto]. eapply incl_tran; eauto.
    + apply rel_bind_plain; auto with plain. intros W1 z t1 t2 I1 S1. apply rel_bind_plain; auto with plain. intros W2 q u1 u2 I2 S2.
      apply rel_ret; auto. cbn [quadQ]. repeat split; [|constructor]. eapply corr_mono; [|eauto]. eapply incl_tran; eauto.
    + apply rel_ret; auto. cbn [quadQ]. auto.
  - clear v1 w1 v2 w2 C1 C2 S. intros W' [[[v1 ta] v2] tb] [[[w1 ta'] w2] tb'] t1 t2 I S Hq.
    destruct Hq as (C1 & <- & C2 & <-). cbv zeta.
    rewrite (corr_get_int _ _ _ C1), (corr_get_int _ _ _ C2), (corr_get_frac _ _ _ C1), (corr_get_frac _ _ _ C2),
      (corr_get_str _ _ _ C1), (corr_get_str _ _ _ C2).
    destruct op; destruct ta; try (apply rel_fail; auto; fail);
      try (destruct (ty_eqb tb _); [|apply rel_fail; auto; fail];
           apply rel_bind_plain; auto with plain; intros;
           first [ apply rel_bind_plain; auto with plain; intros; 
                   first [ apply rel_ret; auto; constructor
                         | destruct (Z.eqb _ _); [apply rel_fail; auto|apply rel_bind_plain; auto with plain; intros; apply rel_ret; auto; constructor]
                         | destruct (q_is_zero _); [apply rel_fail; auto|apply rel_ret; auto; constructor] ]
                 | destruct (Z.eqb _ _); [apply rel_fail; auto|apply rel_bind_plain; auto with plain; intros; apply rel_ret; auto; constructor] ]; fail).
    destruct (most_specific (TArr ta) tb) as [[t any]|]; [|apply rel_fail; auto].
    apply rel_unwrap_arr; auto. intros W1 a b t3 t4 I1 S1 Ca. apply rel_unwrap_arr; auto; [eapply corr_mono; eauto|].
    intros W2 c d t5 t6 I2 S2 Cb. destruct t; try apply rel_panic.
    eapply rel_bind; [apply rel_new_arr; auto|].
    + apply Forall2_app; [eapply corr_list_mono; [eauto|apply corr_arr_values; auto]|apply corr_arr_values; auto].
    + intros W3 x y t7 t8 I3 S3 Cc. apply rel_ret; auto.
Qed.
Definition corr3 (W : world) (x y : value * N * N) : Prop :=
  match x, y with (v, l, k), (w, l', k') => corr W v w /\ l = l' /\ k = k' end.
Lemma corr3_mono W W' vs ws : incl W W' -> Forall2 (corr3 W) vs ws -> Forall2 (corr3 W') vs ws.
Proof.
  intros I H. induction H as [|[[v l] k] [[w l'] k'] vs ws (C & <- & <-) _ IH]; constructor; auto.
  repeat split; auto. eapply corr_mono; eauto.
Qed.
Lemma rel_eval_low ops : forall W v w vals wals s1 s2, srel W s1 s2 -> corr W v w -> Forall2 (corr3 W) vals wals ->
  rel W (eval_low_ops v vals ops) (eval_low_ops w wals ops) corr s1 s2.
Proof.
  induction ops as [|op ops IH]; intros W v w vals wals s1 s2 S C F; [destruct F; apply rel_ret; auto|].
  destruct F as [|[[v2 l] k] [[w2 l'] k'] vals wals (C2 & <- & <-) F]; [apply rel_panic|]. cbn [eval_low_ops].
  eapply rel_bind; [apply rel_binary; auto|]. intros W' a b t1 t2 I S' C'. apply IH; auto. eapply corr3_mono; eauto.
Qed.
Lemma corr3_pop W vals wals : Forall2 (corr3 W) vals wals ->
  match pop_back vals, pop_back wals with
  | Some (vs, x), Some (ws, y) => Forall2 (corr3 W) vs ws /\ corr3 W x y
  | None, None => True
  | _, _ => False
  end.
Proof.
  intros F. unfold pop_back.
  assert (R : Forall2 (corr3 W) (rev vals) (rev wals)).
  { induction F; cbn [rev]; auto. apply Forall2_app; auto. }
  destruct R as [|x y vs ws H R]; auto. split; auto.
  clear F H. induction R; cbn [rev]; auto. apply Forall2_app; auto.
Qed.

(** ** Variables *)
Lemma corr_assoc W ps qs f : corr_pairs W ps qs ->
  match assoc f ps, assoc f qs with Some v, Some w => corr W v w | None, None => True | _, _ => False end.
Proof.
  intros H. induction H as [|[g v] [g' w] ps qs [E C] _ IH]; cbn [assoc]; auto. cbn [fst snd] in *. subst g'.
  destruct (str_eqb g f); auto.
Qed.
Lemma rel_get_globals {A} W (f1 f2 : list (str * value) -> M A) Q s1 s2 : srel W s1 s2 ->
  (corr_pairs W (s_globals s1) (s_globals s2) -> rel W (f1 (s_globals s1)) (f2 (s_globals s2)) Q s1 s2) ->
  rel W (bind get_globals f1) (bind get_globals f2) Q s1 s2.
Proof. intros (_ & _ & _ & _ & G & _) K. exact (K G). Qed.
Lemma rel_get_sh {A} W (f1 f2 : shared -> M A) Q s1 s2 : srel W s1 s2 ->
  (sh_corr W (s_sh s1) (s_sh s2) -> rel W (f1 (s_sh s1)) (f2 (s_sh s2)) Q s1 s2) ->
  rel W (bind get_sh f1) (bind get_sh f2) Q s1 s2.
Proof. intros (_ & _ & _ & _ & _ & G) K. exact (K G). Qed.
Lemma rel_put_sh {A} W h1 h2 (f1 f2 : unit -> M A) Q s1 s2 : srel W s1 s2 -> sh_corr W h1 h2 ->
  (forall t1 t2, srel W t1 t2 -> s_sh t1 = h1 -> s_sh t2 = h2 -> rel W (f1 tt) (f2 tt) Q t1 t2) ->
  rel W (bind (put_sh h1) f1) (bind (put_sh h2) f2) Q s1 s2.
Proof.
  intros (E1 & E2 & E3 & E4 & E5 & _) H K. apply (K (set_sh s1 h1) (set_sh s2 h2)); auto.
  unfold srel, set_sh; cbn [s_file s_rest s_line s_col s_globals s_sh]. auto 10.
Qed.
Lemma rel_insert_global W f v w s1 s2 : srel W s1 s2 -> corr W v w ->
  rel W (insert_global f v) (insert_global f w) eqQ s1 s2.
Proof.
  intros (E1 & E2 & E3 & E4 & E5 & E6) C. exists W. split; [apply incl_refl|]. split; [|reflexivity].
  unfold srel, set_globals; cbn [s_file s_rest s_line s_col s_globals s_sh].
  do 4 (split; [auto|]). split; [|auto]. constructor; auto.
Qed.
Lemma rel_lookup W ps qs var g l k s1 s2 : srel W s1 s2 -> corr_pairs W ps qs ->
  rel W (lookup_variable ps var g l k) (lookup_variable qs var g l k) corr s1 s2.
Proof.
  intros S P. unfold lookup_variable.
  assert (K : forall kd, rel W (let* o := sentinel kd in ret (VObj o)) (let* o := sentinel kd in ret (VObj o)) corr s1 s2).
  { intros kd. apply rel_sentinel; auto. intros W' i j t1 t2 I S' H _ _. apply rel_ret; auto. repeat constructor; auto. }
  repeat match goal with |- rel _ (if ?b then _ else _) _ _ _ _ => destruct b end;
    try (apply rel_ret; auto; constructor); try apply K; try (apply rel_fail; auto).
  - apply rel_get_globals; auto. intros G. pose proof (corr_assoc _ _ _ var G) as H.
    destruct (assoc var (s_globals s1)), (assoc var (s_globals s2)); try contradiction; [apply rel_ret; auto|apply rel_fail; auto].
  - pose proof (corr_assoc _ _ _ var P) as H.
    destruct (assoc var ps), (assoc var qs); try contradiction; [apply rel_ret; auto|apply rel_fail; auto].
Qed.
Lemma rel_index W (get1 get2 : N -> ores value) v w l k s1 s2 : srel W s1 s2 -> corr W v w ->
  (forall i, match get1 i, get2 i with OOk a, OOk b => corr W a b | OErr e, OErr e' => e = e' | _, _ => False end) ->
  rel W (index_by get1 v l k) (index_by get2 w l k) corr s1 s2.
Proof.
  intros S C G. pose proof (corr_type _ _ _ C) as T. unfold index_by.
  destruct C; try (apply rel_fail; auto; f_equal; exact T).
  destruct (to_usize z) as [i|]; [|apply rel_fail; auto].
  specialize (G i). destruct (get1 i) as [a|e], (get2 i) as [b|e']; try contradiction.
  - apply rel_ret; auto.
  - subst e'. apply rel_bind_plain; auto with plain. intros. apply rel_raise. auto.
Qed.
Lemma corr_nth W vs ws n : Forall2 (corr W) vs ws ->
  match nth_error vs n, nth_error ws n with Some a, Some b => corr W a b | None, None => True | _, _ => False end.
Proof. intros H. revert n. induction H as [|x y vs ws C H IH]; intros [|n]; cbn [nth_error]; auto. apply IH. Qed.
Lemma Forall2_length {A B} (R : A -> B -> Prop) l m : Forall2 R l m -> List.length l = List.length m.
Proof. intros H. induction H; cbn; auto. Qed.
Lemma corr_arr_get W a b i : corr W (VArr a) (VArr b) ->
  match arr_get a i, arr_get b i with OOk a, OOk b => corr W a b | OErr e, OErr e' => e = e' | _, _ => False end.
Proof.
  intros C. apply corr_arr_values in C. unfold arr_get, arr_len. rewrite (Forall2_length _ _ _ C).
  destruct (_ <=? i); auto. pose proof (corr_nth _ _ _ (N.to_nat i) C) as H.
  destruct (nth_error (arr_values a) (N.to_nat i)), (nth_error (arr_values b) (N.to_nat i)); auto; contradiction.
Qed.
Lemma corr_tup_values W a b : corr W (VTup a) (VTup b) -> Forall2 (corr W) (tup_values a) (tup_values b).
Proof. intros C. inversion C; subst. auto. Qed.
Lemma corr_tup_get W a b i : corr W (VTup a) (VTup b) ->
  match tup_get a i, tup_get b i with OOk a, OOk b => corr W a b | OErr e, OErr e' => e = e' | _, _ => False end.
Proof.
  intros C. apply corr_tup_values in C. unfold tup_get, tup_len. rewrite (Forall2_length _ _ _ C).
  destruct (_ <=? i); auto. pose proof (corr_nth _ _ _ (N.to_nat i) C) as H.
  destruct (nth_error (tup_values a) (N.to_nat i)), (nth_error (tup_values b) (N.to_nat i)); auto; contradiction.
Qed.

(** ** Includes *)
Section Main.
Context `{U : Unicode}.
Variable fs : fsys.
Variable li : inc_ty -> str -> shared -> outcome value * shared.
Definition loads_alike : Prop := forall W ty p h1 h2, sh_corr W h1 h2 -> orel W corr sh_corr (li ty p h1) (li ty p h2).
Hypothesis Hli : loads_alike.

Lemma rel_run_include W ty p s1 s2 : srel W s1 s2 -> rel W (run_include li ty p) (run_include li ty p) corr s1 s2.
Proof.
  intros (E1 & E2 & E3 & E4 & E5 & E6). pose proof (Hli W ty p _ _ E6) as H. unfold rel, orel, run_include in *.
  destruct (li ty p (s_sh s1)) as [[a1|e1| |] t1], (li ty p (s_sh s2)) as [[a2|e2| |] t2]; try contradiction; auto.
  destruct H as (W' & I & S & C). exists W'. split; auto. split; auto.
  unfold srel, set_sh; cbn [s_file s_rest s_line s_col s_globals s_sh].
  do 4 (split; [auto|]). split; auto. eapply corr_pairs_mono; eauto.
Qed.
Lemma rel_finish W ty f l k s1 s2 : srel W s1 s2 ->
  rel W (finish_include fs li ty f l k) (finish_include fs li ty f l k) corr s1 s2.
Proof.
  intros S. unfold finish_include. apply rel_bind_plain; auto with plain. clear s1 s2 S. intros W1 file s1 s2 _ S.
  apply rel_bind_plain; auto with plain. clear s1 s2 S. intros W2 [] s1 s2 _ S. clear W1. rename W2 into W1. cbv zeta.
  destruct (negb _); [apply rel_fail; auto|]. destruct (canon fs _) as [full|]; [|apply rel_fail; auto].
  apply rel_get_sh; auto. intros (V & O & G).
  apply rel_put_sh; auto; [unfold sh_corr, log_ev; cbn [sh_vals sh_open sh_g]; auto|].
  clear V O G S. intros t1 t2 S _ _. clear s1 s2.
  eapply (rel_bind W1 _ _ _ _ eqQ).
  { destruct file as [fl|]; [|apply rel_ret; auto; reflexivity]. destruct (canon fs fl) as [ff|]; [|apply rel_panic].
    apply rel_get_sh; auto. intros (V & O & G). apply rel_put_sh; auto.
    - unfold sh_corr; cbn [sh_vals sh_open sh_g]. rewrite O. auto.
    - intros u1 u2 S' _ _. apply rel_ret; auto. reflexivity. }
  clear t1 t2 S. intros W2 st st' t1 t2 I2 S <-. clear I2 W1.
  apply rel_get_sh; auto. intros (V & O & G). rewrite O. destruct (mem_str full _); [apply rel_fail; auto|].
  eapply (rel_bind W2 _ _ _ _ corr).
  { pose proof (corr_assoc _ _ _ full V) as H.
    destruct (assoc full (sh_vals (s_sh t1))), (assoc full (sh_vals (s_sh t2))); try contradiction; [apply rel_ret; auto|].
    eapply rel_bind; [apply rel_run_include; auto|]. intros W3 a b u1 u2 I3 S3 C. apply rel_get_sh; auto. intros (V3 & O3 & G3).
    apply rel_put_sh; auto.
    - unfold sh_corr; cbn [sh_vals sh_open sh_g]. split; auto. constructor; auto.
    - intros. apply rel_ret; auto. }
  clear V O G S t1 t2. intros W3 a b t1 t2 _ S C.
  apply rel_get_sh; auto. intros (V & O & G).
  eapply (rel_bind W3 _ _ _ _ eqQ).
  { destruct st as [x|]; [|apply rel_ret; auto; reflexivity]. destruct S as (E1 & E2 & E3 & E4 & E5 & _).
    exists W3. split; [apply incl_refl|]. split; [|reflexivity].
    unfold srel, sh_corr, set_sh; cbn [s_file s_rest s_line s_col s_globals s_sh sh_vals sh_open sh_g]. rewrite O. auto 10. }
  clear V O G S t1 t2. intros W4 _ _ t1 t2 I4 S _.
  apply rel_get_sh; auto. intros (V & O & G). apply rel_put_sh; auto; [unfold sh_corr, log_ev; cbn [sh_vals sh_open sh_g]; auto|].
  intros. apply rel_ret; auto. eapply corr_mono; eauto.
Qed.

(** ** The parser *)
Definition opsQ : world -> list (value * N * N) * list binop -> list (value * N * N) * list binop -> Prop :=
  fun W x y => Forall2 (corr3 W) (fst x) (fst y) /\ snd x = snd y.
Definition corr_opt (W : world) (p q : option obj) : Prop :=
  match p, q with Some p, Some q => corr_obj W p q | None, None => True | _, _ => False end.
Definition pairsQ : world -> list pair_t * option obj -> list pair_t * option obj -> Prop :=
  fun W x y => corr_pairs W (fst x) (fst y) /\ corr_opt W (snd x) (snd y).
Definition morepairsQ : world -> bool * list pair_t * option obj -> bool * list pair_t * option obj -> Prop :=
  fun W x y => fst (fst x) = fst (fst y) /\ corr_pairs W (snd (fst x)) (snd (fst y)) /\ corr_opt W (snd x) (snd y).
Definition arrQ : world -> list value * ty -> list value * ty -> Prop :=
  fun W x y => Forall2 (corr W) (fst x) (fst y) /\ snd x = snd y.
Definition listQ : world -> list value -> list value -> Prop := fun W x y => Forall2 (corr W) x y.
Lemma corr_opt_mono W W' p q : incl W W' -> corr_opt W p q -> corr_opt W' p q.
Proof. intros I. unfold corr_opt. destruct p, q; auto. apply corr_obj_mono; auto. Qed.

Definition PR (n : nat) : Prop :=
  (forall W ps qs l k d b first s1 s2, srel W s1 s2 -> corr_pairs W ps qs ->
     rel W (parse_value fs li n ps l k d b first) (parse_value fs li n qs l k d b first) corr s1 s2) /\
  (forall W ps qs d b vals wals ops s1 s2, srel W s1 s2 -> corr_pairs W ps qs -> Forall2 (corr3 W) vals wals ->
     rel W (parse_ops fs li n ps d b vals ops) (parse_ops fs li n qs d b wals ops) opsQ s1 s2) /\
  (forall W ps qs d b op s1 s2, srel W s1 s2 -> corr_pairs W ps qs ->
     rel W (parse_unary_op fs li n ps d b op) (parse_unary_op fs li n qs d b op) corr s1 s2) /\
  (forall W d s1 s2, srel W s1 s2 -> rel W (parse_obj fs li n d) (parse_obj fs li n d) corr s1 s2) /\
  (forall W ps qs par par' d b s1 s2, srel W s1 s2 -> corr_pairs W ps qs -> corr_opt W par par' ->
     rel W (pairs_loop fs li n ps par d b) (pairs_loop fs li n qs par' d b) pairsQ s1 s2) /\
  (forall W ps qs par par' d b s1 s2, srel W s1 s2 -> corr_pairs W ps qs -> corr_opt W par par' ->
     rel W (parse_field_value_pair fs li n ps par d b) (parse_field_value_pair fs li n qs par' d b) morepairsQ s1 s2) /\
  (forall W ps qs d s1 s2, srel W s1 s2 -> corr_pairs W ps qs ->
     rel W (parse_arr fs li n ps d) (parse_arr fs li n qs d) corr s1 s2) /\
  (forall W ps qs d vs ws t any s1 s2, srel W s1 s2 -> corr_pairs W ps qs -> Forall2 (corr W) vs ws ->
     rel W (arr_loop fs li n ps d vs t any) (arr_loop fs li n qs d ws t any) arrQ s1 s2) /\
  (forall W ps qs d s1 s2, srel W s1 s2 -> corr_pairs W ps qs ->
     rel W (parse_tup fs li n ps d) (parse_tup fs li n qs d) corr s1 s2) /\
  (forall W ps qs d vs ws s1 s2, srel W s1 s2 -> corr_pairs W ps qs -> Forall2 (corr W) vs ws ->
     rel W (tup_loop fs li n ps d vs) (tup_loop fs li n qs d ws) listQ s1 s2) /\
  (forall W ps qs l k d b s1 s2, srel W s1 s2 -> corr_pairs W ps qs ->
     rel W (parse_variable fs li n ps l k d b) (parse_variable fs li n qs l k d b) corr s1 s2) /\
  (forall W ps qs d s1 s2, srel W s1 s2 -> corr_pairs W ps qs ->
     rel W (parse_include fs li n ps d) (parse_include fs li n qs d) corr s1 s2).
Definition leafy (m : M value) : Prop := forall W s1 s2, srel W s1 s2 -> rel W m m corr s1 s2.
Lemma leafy_bind {A} (m : M A) (f : A -> M value) : plain m -> (forall a, leafy (f a)) -> leafy (bind m f).
Proof. intros H K W s1 s2 S. apply rel_bind_plain; auto. intros. apply K. auto. Qed.
Lemma leafy_fail k : leafy (fail k).
Proof. intros W s1 s2 S. apply rel_fail; auto. Qed.
Lemma leafy_int z : leafy (ret (VInt z)).
Proof. intros W s1 s2 S. apply rel_ret; auto. constructor. Qed.
Lemma leafy_frac z : leafy (ret (VFrac z)).
Proof. intros W s1 s2 S. apply rel_ret; auto. constructor. Qed.
Lemma leafy_str z : leafy (ret (VStr z)).
Proof. intros W s1 s2 S. apply rel_ret; auto. constructor. Qed.
Ltac leafys := repeat first
  [ apply leafy_fail | apply leafy_int | apply leafy_frac | apply leafy_str
  | apply leafy_bind; [solve [auto with plain | plains]|intros ?]
  | match goal with |- leafy (match ?x with _ => _ end) => destruct x end ].
Lemma leafy_parse_str : leafy parse_str.
Proof.
  unfold parse_str. do 2 (apply leafy_bind; [auto with plain|intros ?]).
  apply leafy_bind; [exact (plain_scan (fun r l k => scan_str r l k [] false))|intros ?]. leafys.
Qed.
Lemma leafy_parse_numeric l k : leafy (parse_numeric l k).
Proof.
  unfold parse_numeric.
  apply leafy_bind; [exact (plain_scan (fun r l k => scan_numeric r l k [] [] false false))|intros ?]. leafys.
Qed.
Ltac up I :=
  repeat match goal with
  | H : corr_pairs ?W _ _ |- _ => match type of I with incl W _ => apply (corr_pairs_mono _ _ _ _ I) in H end
  | H : corr ?W _ _ |- _ => match type of I with incl W _ => apply (corr_mono _ _ _ _ I) in H end
  | H : corr_obj ?W _ _ |- _ => match type of I with incl W _ => apply (corr_obj_mono _ _ _ _ I) in H end
  | H : corr_opt ?W _ _ |- _ => match type of I with incl W _ => apply (corr_opt_mono _ _ _ _ I) in H end
  | H : Forall2 (corr ?W) _ _ |- _ => match type of I with incl W _ => apply (corr_list_mono _ _ _ _ I) in H end
  | H : Forall2 (corr3 ?W) _ _ |- _ => match type of I with incl W _ => apply (corr3_mono _ _ _ _ I) in H end
  | H : srel ?W _ _ |- _ => match type of I with incl W _ => clear H end
  end; clear I.
(** a step that both sides make alike *)
Ltac pl x :=
  apply rel_bind_plain; [solve [auto with plain | plains] | assumption |];
  let W := fresh "W" in let t1 := fresh "s" in let t2 := fresh "s" in let I := fresh "I" in let S := fresh "S" in
  intros W x t1 t2 I S; up I; cbv beta iota.
(** a step with a known relation *)
Ltac rb tac a b C :=
  eapply rel_bind; [tac; eassumption|];
  let W := fresh "W" in let t1 := fresh "s" in let t2 := fresh "s" in let I := fresh "I" in let S := fresh "S" in
  intros W a b t1 t2 I S C; up I; cbv beta iota.
Ltac rfail := apply rel_fail; [assumption|]; auto.

Lemma PR_all n : PR n.
Proof.
  induction n as [|n IH]; [unfold PR; repeat split; intros; apply rel_nofuel|].
  destruct IH as (HV & HO & HU & HOb & HL & HP & HA & HAL & HT & HTL & HVa & HI).
  unfold PR. repeat match goal with |- _ /\ _ => split end.
  - (* parse_value *)
    intros W ps qs l k d b first s1 s2 S P. rewrite !parse_value_S. pl ch.
    eapply (rel_bind _ _ _ _ _ corr).
    { repeat match goal with |- rel _ (if ?c then _ else _) _ _ _ _ => destruct c end; auto; try rfail;
        [apply leafy_parse_str; auto|apply leafy_parse_numeric; auto]. }
    intros W1 a1 a2 t1 t2 I1 S1 C. up I1. destruct first; [|apply rel_ret; auto].
    eapply rel_bind; [apply HO; eauto; repeat constructor; auto|]. intros W2 [vals ops] [wals ops'] t3 t4 I2 S2 [F E]. cbn [fst snd] in F, E. subst ops'.
    up I2. pl u. destruct F as [|[[v lv] kv] [[w lw] kw] vals wals (Cv & <- & <-) F]; [apply rel_panic|]. apply rel_eval_low; auto.
  - (* parse_ops *)
    intros W ps qs d b vals wals ops s1 s2 S P F. rewrite !parse_ops_S. pl o.
    destruct o as [c|]; [|apply rel_ret; auto; split; auto]. destruct (get_op c) as [op|]; [|apply rel_ret; auto; split; auto].
    pl u. pl o2. destruct o2; [|pl ln; rfail]. pl pos. destruct pos as [l2 k2].
    eapply rel_bind; [apply HV; eauto|]. intros W6 v w t3 t4 I2 S6 C. up I2.
    destruct (is_priority op).
    + pose proof (corr3_pop _ _ _ F) as Fp. destruct (pop_back vals) as [[vs [[v1 l1] k1]]|], (pop_back wals) as [[ws [[w1 l1'] k1']]|];
        try contradiction; [|apply rel_panic]. destruct Fp as (Fp & C1 & <- & <-).
      eapply rel_bind; [apply rel_binary; eauto|]. intros W7 a1 a2 t5 t6 I7 S7 C7. up I7.
      apply HO; auto. apply Forall2_app; auto. repeat constructor; auto.
    + apply HO; auto. apply Forall2_app; auto. repeat constructor; auto.
  - (* parse_unary_op *)
    intros W ps qs d b op s1 s2 S P. rewrite !parse_unary_op_S. pl nx. pl u. pl pos. destruct pos as [l k]. pl o.
    destruct o; [|rfail]. eapply rel_bind; [apply HV; eauto|]. intros W6 v w t3 t4 I2 S6 C. up I2. apply rel_unary; auto.
  - (* parse_obj *)
    intros W d s1 s2 S. rewrite !parse_obj_S. destruct (_ <? _); [pl pos; destruct pos; rfail|].
    pl c. pl u. pl found. destruct (negb found); [pl ln; rfail|].
    eapply rel_bind; [apply (HL _ [] [] None None); eauto; [constructor|exact I]|].
    intros W6 [ps par] [qs par'] t3 t4 I2 S6 [P Q]. cbn [fst snd] in P, Q. up I2.
    eapply rel_bind; [apply rel_new_obj; eauto|]. intros W7 o p t5 t6 I7 S7 C. apply rel_ret; auto. constructor. auto.
  - (* pairs_loop *)
    intros W ps qs par par' d b s1 s2 S P Q. rewrite !pairs_loop_S.
    eapply rel_bind; [apply HP; eauto|]. intros W6 [[m ps'] pr] [[m' qs'] pr'] t3 t4 I2 S6 (E & P' & Q'). cbn [fst snd] in E, P', Q'. subst m'.
    up I2. destruct m; [apply HL; auto|]. apply rel_ret; auto. split; auto.
  - (* parse_field_value_pair *)
    intros W ps qs par par' d b s1 s2 S P Q. rewrite !parse_field_value_pair_S. pl pk.
    destruct (_ && _); [pl u; apply rel_ret; auto; repeat split; auto|].
    destruct (is_end_delimiter pk); [pl pos; destruct pos; rfail|].
    pl pos. destruct pos as [fl fc]. pl fn. destruct fn as [name ft].
    eapply (rel_bind _ _ _ _ _ eqQ).
    { destruct ft.
      - apply rel_get_globals; auto. intros G. pose proof (corr_assoc _ _ _ name G) as H.
        destruct (assoc name (s_globals s5)), (assoc name (s_globals s6)); try contradiction; [rfail|apply rel_ret; auto; reflexivity].
      - destruct par, par'; try contradiction; [rfail|apply rel_ret; auto; reflexivity].
      - replace (existsb (fun p => str_eqb (fst p) name) qs) with (existsb (fun p => str_eqb (fst p) name) ps).
        + destruct (existsb _ ps); [rfail|apply rel_ret; auto; reflexivity].
        + clear -P. induction P as [|x y ps qs [E _] _ IH]; cbn [existsb]; auto. rewrite E, IH. auto. }
    intros W6 u1 u2 t3 t4 I2 S6 _. up I2. pl found. destruct (negb found); [pl ln; rfail|].
    pl pos. destruct pos as [vl vc]. eapply rel_bind; [apply HV; eauto|]. intros W9 v w t5 t6 I3 S9 C. up I3.
    eapply (rel_bind _ _ _ _ _ pairsQ).
    { destruct ft.
      - eapply rel_bind; [apply rel_insert_global; eauto|]. intros W10 a1 a2 t7 t8 I4 S10 _. up I4. apply rel_ret; auto. split; auto.
      - destruct C; cbn [get_obj get_type]; try (pl fil; apply rel_raise; auto; fail). apply rel_ret; auto. split; auto.
      - apply rel_ret; auto. split; auto. apply Forall2_app; auto. }
    intros W10 [ps' pr] [qs' pr'] t7 t8 I4 S10 [P' Q']. cbn [fst snd] in P', Q'. clear P Q C. up I4. pl found2.
    destruct (negb found2); [destruct b; [pl ln; rfail|]|]; apply rel_ret; auto; repeat split; auto.
  - (* parse_arr *)
    intros W ps qs d s1 s2 S P. rewrite !parse_arr_S. destruct (_ <? _); [pl pos; destruct pos; rfail|].
    pl c. pl u. eapply rel_bind; [apply HAL; eauto|]. intros W6 [vs t] [ws t'] t3 t4 I2 S6 [F E]. cbn [fst snd] in F, E. subst t'. up I2.
    eapply rel_bind; [apply rel_new_arr; eauto|]. intros W7 a1 a2 t5 t6 I7 S7 C. apply rel_ret; auto.
  - (* arr_loop *)
    intros W ps qs d vs ws t any s1 s2 S P F. rewrite !arr_loop_S. pl found. destruct (negb found); [pl ln; rfail|].
    pl pk. destruct (pk =? c_rbrack); [pl u; apply rel_ret; auto; split; auto|].
    destruct (is_end_delimiter pk); [pl pos; destruct pos; rfail|]. pl pos. destruct pos as [l k].
    eapply rel_bind; [apply HV; eauto|]. intros W6 v w t3 t4 I2 S6 C. up I2. rewrite (corr_type _ _ _ C).
    destruct (arr_check_step t any (get_type w)) as [[t' any']|[x y]]; [|rfail]. apply HAL; auto. apply Forall2_app; auto.
  - (* parse_tup *)
    intros W ps qs d s1 s2 S P. rewrite !parse_tup_S. destruct (_ <? _); [pl pos; destruct pos; rfail|].
    pl c. pl u. eapply rel_bind; [apply HTL; eauto|]. intros W6 vs ws t3 t4 I2 S6 F. up I2.
    eapply rel_bind; [apply rel_new_tup; eauto|]. intros W7 a1 a2 t5 t6 I7 S7 C. apply rel_ret; auto.
  - (* tup_loop *)
    intros W ps qs d vs ws s1 s2 S P F. rewrite !tup_loop_S. pl found. destruct (negb found); [pl ln; rfail|].
    pl pk. destruct (pk =? c_rparen); [pl u; apply rel_ret; auto; exact F|].
    destruct (is_end_delimiter pk); [pl pos; destruct pos; rfail|]. pl pos. destruct pos as [l k].
    eapply rel_bind; [apply HV; eauto|]. intros W6 v w t3 t4 I2 S6 C. up I2. apply HTL; auto. apply Forall2_app; auto.
  - (* parse_variable *)
    intros W ps qs l k d b s1 s2 S P. rewrite !parse_variable_S. pl ch. cbv zeta. pl var0.
    apply rel_bind_plain; [exact (plain_scan (fun r l k => scan_var r l k var0))|assumption|]. intros W5 r t1 t2 I5 S5. up I5.
    pl x. destruct x as [[var dot] dg]. eapply rel_bind; [apply rel_lookup; eauto|]. intros W6 v w t3 t4 I2 S6 C. up I2.
    destruct dot; [|apply rel_ret; auto]. pose proof C as CC. destruct C; try (rfail; fail).
    + pl pos. destruct pos as [l' k']. eapply rel_bind; [apply HV; eauto|]. intros W8 v w t5 t6 I8 S8 C.
      apply rel_index; auto. intros x. apply corr_arr_get. eapply corr_mono; eauto.
    + pl pos. destruct pos as [l' k']. eapply rel_bind; [apply HV; eauto|]. intros W8 v w t5 t6 I8 S8 C.
      apply rel_index; auto. intros x. apply corr_tup_get. eapply corr_mono; eauto.
    + pl pos. destruct pos as [l' k']. destruct dg; [rfail|]. apply HVa; auto.
      inversion CC as [| | | | | | |? ? CO]; subst. inversion CO; subst; auto.
  - (* parse_include *)
    intros W ps qs d s1 s2 S P. rewrite !parse_include_S. destruct (_ <? _); [pl pos; destruct pos; rfail|].
    pl c. pl u. pl found. destruct (negb found); [pl ln; rfail|]. pl pos. destruct pos as [l k].
    eapply rel_bind; [apply HV; eauto|]. intros W6 v w t3 t4 I2 S6 C. up I2.
    eapply rel_bind; [apply rel_include_token; eauto|]. intros W7 tok tok' t5 t6 I7 S7 E. unfold eqQ in E. subst tok'. up I7.
    eapply (rel_bind _ _ _ _ _ (fun W x y => match x, y with (i, v, l, k), (i', w, l', k') => i = i' /\ corr W v w /\ l = l' /\ k = k' end)).
    { destruct tok as [ity|]; [|apply rel_ret; auto]. pl found2. destruct (negb found2); [pl ln; rfail|].
      pl pos. destruct pos as [l' k']. eapply rel_bind; [apply HV; eauto|]. intros W8 v' w' t7 t8 I8 S8 C8. apply rel_ret; auto. }
    clear C. intros W8 [[[ity v'] l'] k'] [[[ity' w'] l''] k''] t7 t8 I8 S8 (<- & C & <- & <-). up I8.
    pl found2. destruct (negb found2); [pl ln; rfail|]. pl c2. destruct (negb (c2 =? c_gt)); [pl ln; pl cl; rfail|].
    destruct C; try (rfail; fail). apply rel_finish; auto.
Qed.


Lemma rel_obj_stream n W s1 s2 : srel W s1 s2 ->
  rel W (parse_obj_stream fs li n) (parse_obj_stream fs li n) corr_obj s1 s2.
Proof.
  intros S. destruct (PR_all n) as (_ & _ & _ & _ & HL & _). unfold parse_obj_stream. pl found.
  destruct (negb found); [apply rel_new_obj; auto; constructor|].
  eapply rel_bind; [apply (HL _ [] [] None None); eauto; [constructor|exact I]|].
  intros W6 [ps par] [qs par'] t3 t4 I2 S6 [P Q]. cbn [fst snd] in P, Q. apply rel_new_obj; auto.
Qed.
Lemma rel_arr_loop n : forall W vs ws t any s1 s2, srel W s1 s2 -> Forall2 (corr W) vs ws ->
  rel W (arr_file_loop fs li n vs t any) (arr_file_loop fs li n ws t any) arrQ s1 s2.
Proof.
  induction n as [|n IH]; intros W vs ws t any s1 s2 S F; [apply rel_nofuel|].
  destruct (PR_all n) as (HV & _). cbn [arr_file_loop]. pl found. destruct (negb found); [apply rel_ret; auto; split; auto|].
  pl pos. destruct pos as [l k]. eapply rel_bind; [apply (HV _ [] []); eauto; constructor|]. intros W6 v w t3 t4 I2 S6 C. up I2.
  rewrite (corr_type _ _ _ C). destruct (arr_check_step t any (get_type w)) as [[t' any']|[x y]]; [|rfail]. apply IH; auto. apply Forall2_app; auto.
Qed.
Lemma rel_tup_loop n : forall W vs ws s1 s2, srel W s1 s2 -> Forall2 (corr W) vs ws ->
  rel W (tup_file_loop fs li n vs) (tup_file_loop fs li n ws) listQ s1 s2.
Proof.
  induction n as [|n IH]; intros W vs ws s1 s2 S F; [apply rel_nofuel|].
  destruct (PR_all n) as (HV & _). cbn [tup_file_loop]. pl found. destruct (negb found); [apply rel_ret; auto; exact F|].
  pl pos. destruct pos as [l k]. eapply rel_bind; [apply (HV _ [] []); eauto; constructor|]. intros W6 v w t3 t4 I2 S6 C. up I2.
  apply IH; auto. apply Forall2_app; auto.
Qed.
Lemma rel_arr_stream n W s1 s2 : srel W s1 s2 ->
  rel W (parse_arr_stream fs li n) (parse_arr_stream fs li n) (fun W a b => corr W (VArr a) (VArr b)) s1 s2.
Proof.
  intros S. unfold parse_arr_stream. eapply rel_bind; [apply rel_arr_loop; eauto|].
  intros W6 [vs t] [ws t'] t3 t4 I2 S6 [F E]. cbn [fst snd] in F, E. subst t'. apply rel_new_arr; auto.
Qed.
Lemma rel_tup_stream n W s1 s2 : srel W s1 s2 ->
  rel W (parse_tup_stream fs li n) (parse_tup_stream fs li n) (fun W a b => corr W (VTup a) (VTup b)) s1 s2.
Proof.
  intros S. unfold parse_tup_stream. eapply rel_bind; [apply rel_tup_loop; eauto|].
  intros W6 vs ws t3 t4 I2 S6 F. apply rel_new_tup; auto.
Qed.
End Main.

(** ** Files *)
Section Files.
Context `{U : Unicode}.
Variable fs : fsys.
Lemma run_stream_rel {A} (p : M A) f c W Q h1 h2 :
  (forall s1 s2, srel W s1 s2 -> rel W p p Q s1 s2) -> sh_corr W h1 h2 ->
  orel W Q sh_corr (run_stream p f c h1) (run_stream p f c h2).
Proof.
  intros K H. unfold run_stream.
  assert (S : srel W (mkst f c 1 1 [] h1) (mkst f c 1 1 [] h2)).
  { unfold srel; cbn [s_file s_rest s_line s_col s_globals s_sh]. do 4 (split; [auto|]). split; [constructor|auto]. }
  specialize (K _ _ S). unfold rel, orel in *.
  destruct (p _) as [[a1|e1| |] t1], (p (mkst f c 1 1 [] h2)) as [[a2|e2| |] t2]; try contradiction; auto.
  destruct K as (W' & I & (_ & _ & _ & _ & _ & S') & Hq). exists W'. auto.
Qed.
Lemma log_corr W e1 e2 h1 h2 : sh_corr W h1 h2 -> sh_corr W (log_ev e1 h1) (log_ev e2 h2).
Proof. auto. Qed.
Lemma done_rel {A} W (Q : world -> A -> A -> Prop) p r1 r2 : orel W Q sh_corr r1 r2 ->
  orel W Q sh_corr (done_file fs p r1) (done_file fs p r2).
Proof.
  unfold orel, done_file. destruct r1 as [[a1|e1| |] t1], r2 as [[a2|e2| |] t2]; try contradiction; auto.
Qed.
Lemma omap_rel {A} (f : A -> value) W (Q : world -> A -> A -> Prop) r1 r2 : orel W Q sh_corr r1 r2 ->
  (forall W a b, Q W a b -> corr W (f a) (f b)) ->
  orel W corr sh_corr (let '(o, sh) := r1 in (omap f o, sh)) (let '(o, sh) := r2 in (omap f o, sh)).
Proof.
  unfold orel. intros H K. destruct r1 as [[a1|e1| |] t1], r2 as [[a2|e2| |] t2]; try contradiction; cbn [omap]; auto.
  destruct H as (W' & ? & ? & ?). exists W'. auto.
Qed.
Lemma open_rel W p h1 h2 : sh_corr W h1 h2 ->
  fst (open_file fs p h1) = fst (open_file fs p h2) /\ sh_corr W (snd (open_file fs p h1)) (snd (open_file fs p h2)).
Proof.
  intros H. unfold open_file. destruct (fs_entry fs p) as [[i e]|]; [|auto]. destruct (fe_read e); auto.
Qed.
Lemma load_alike k : loads_alike (load_file fs k).
Proof.
  induction k as [|k IH]; intros W ty p h1 h2 H; [exact I|]. cbn [load_file].
  destruct (open_rel W p h1 h2 H) as [E S]. destruct (open_file fs p h1) as [r1 h1'], (open_file fs p h2) as [r2 h2'].
  cbn [fst snd] in E, S. subst r2. destruct r1 as [c|e]; [|reflexivity]. apply done_rel. destruct ty.
  - eapply omap_rel; [apply run_stream_rel; [|exact S]; intros; apply rel_obj_stream; auto|]. intros; constructor; auto.
  - exists W. split; [apply incl_refl|]. split; [auto|constructor].
  - eapply omap_rel; [apply run_stream_rel; [|exact S]; intros; apply rel_arr_stream; auto|]. auto.
  - eapply omap_rel; [apply run_stream_rel; [|exact S]; intros; apply rel_tup_stream; auto|]. auto.
Qed.
End Files.
End States.

Section Ends.
Context `{U : Unicode}.
Variable fs : fsys.
Lemma init_corr g1 g2 : g_ok g1 -> g_ok g2 -> sh_corr (g_next g1) (g_next g2) True [] (init_sh g1) (init_sh g2).
Proof.
  intros G1 G2. split; [constructor|]. split; [reflexivity|]. split; [split; [auto|cbn; lia]|]. split; [split; [auto|cbn; lia]|].
  split; [intros _ ? ? ? ? []|intros ? ? []].
Qed.
Lemma parse_str_alike g1 g2 text : g_ok g1 -> g_ok g2 ->
  orel [] (corr_obj (g_next g1) (g_next g2)) (sh_corr (g_next g1) (g_next g2) True) (parse_obj_str fs g1 text) (parse_obj_str fs g2 text).
Proof.
  intros G1 G2. unfold parse_obj_str. apply run_stream_rel; [|apply init_corr; auto].
  intros. apply rel_obj_stream; auto. apply load_alike.
Qed.
Lemma parse_file_alike g1 g2 path : g_ok g1 -> g_ok g2 ->
  orel [] (corr_obj (g_next g1) (g_next g2)) (sh_corr (g_next g1) (g_next g2) True) (parse_obj_file fs g1 path) (parse_obj_file fs g2 path).
Proof.
  intros G1 G2. unfold parse_obj_file.
  destruct (open_rel (g_next g1) (g_next g2) True fs [] path _ _ (init_corr g1 g2 G1 G2)) as [E S].
  destruct (open_file fs path (init_sh g1)) as [r1 h1'], (open_file fs path (init_sh g2)) as [r2 h2'].
  cbn [fst snd] in E, S. subst r2. destruct r1 as [c|e]; [|reflexivity].
  apply run_stream_rel; auto. intros. apply rel_obj_stream; auto. apply load_alike.
Qed.
End Ends.
