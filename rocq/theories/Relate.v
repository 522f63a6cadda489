(** * Relate: two evaluations of the same expression in different surroundings, includes allowed.

    As Refactor.v, but the two values correspond instance by instance (History.v), so that an include does the same in
    both, whatever keyword Objs and loaded files there are. *)
From Verif Require Export Refactor.
From Verif Require History PropOps.
From Coq Require String.
Import String.StringSyntax.
Open Scope N_scope.

Notation wd := (list (N * N)).
Notation corr := History.corr.
Notation corr_obj := History.corr_obj.
Notation corr_pairs := History.corr_pairs.
Definition ids (b : N) (W : wd) (g g' : gstate) : Prop := History.ids_ok b b False W g g'.

(** ** Later states of a process *)
Definition g_desc (g0 g : gstate) : Prop :=
  g_later g0 g /\ g_ok g /\ forall i, i < g_next g0 -> In i (g_taken g) -> In i (g_taken g0).
Lemma desc_refl g : g_ok g -> g_desc g g.
Proof. intros G. split; [apply g_later_refl|]. auto. Qed.
Lemma desc_trans g1 g2 g3 : g_desc g1 g2 -> g_desc g2 g3 -> g_desc g1 g3.
Proof.
  intros (L1 & _ & T1) (L2 & G2 & T2). split; [eapply g_later_trans; eauto|]. split; [exact G2|].
  intros i Hi X. apply T1; auto. apply T2; auto. destruct L1. lia.
Qed.
Lemma desc_bump g0 g : g_desc g0 g -> g_desc g0 (bump g).
Proof.
  intros (L & G & T). split; [apply later_bump; auto|]. split; [apply ok_bump; auto|]. intros i Hi X. apply T; auto.
  apply (old_bump g i); auto. destruct L. lia.
Qed.
Lemma desc_sent g0 g k : g_desc g0 g -> g_sent g k = None -> g_desc g0 (g_new_sent g k).
Proof.
  intros (L & G & T) N. split; [apply later_sent; auto|]. split; [apply ok_sent; auto|]. intros i Hi X. apply T; auto.
  apply (sent_new_sent g k i); auto. destruct L. lia.
Qed.
Lemma desc_old g0 g i k : g_desc g0 g -> i < g_next g0 -> (g_sent g k = Some i <-> g_sent g0 k = Some i).
Proof.
  intros ([_ L] & _ & _) Hi. specialize (L k). destruct (g_sent g0 k) as [j|].
  - rewrite L. tauto.
  - split; [|discriminate]. intros E. rewrite E in L. lia.
Qed.
Lemma desc_fos b g0 g i : g_desc g0 g -> i < g_next g0 -> History.fresh_or_sent b g0 i -> History.fresh_or_sent b g i.
Proof.
  intros D Hi [F N]. split; [|intros X; apply N; apply D; auto]. destruct F as [F|[k F]]; [auto|]. right. exists k. apply (desc_old g0); auto.
Qed.
Lemma ids_later b W g1 g2 g1' g2' : ids b W g1 g2 -> g_desc g1 g1' -> g_desc g2 g2' -> ids b W g1' g2'.
Proof.
  intros ([G1 B1] & [G2 B2] & _ & H) D1 D2. pose proof D1 as ([L1 _] & K1 & _). pose proof D2 as ([L2 _] & K2 & _).
  split; [split; [auto|lia]|]. split; [split; [auto|lia]|]. split; [intros []|]. intros i j X. apply H in X as ([I1 F1] & [I2 F2] & E).
  split; [split; [lia|exact (desc_fos _ _ _ _ D1 I1 F1)]|]. split; [split; [lia|exact (desc_fos _ _ _ _ D2 I2 F2)]|].
  intros k. rewrite (desc_old g1 g1' i k D1 I1), (desc_old g2 g2' j k D2 I2). apply E.
Qed.
Lemma ids_union b W1 W2 g g' : ids b W1 g g' -> ids b W2 g g' -> ids b (W1 ++ W2) g g'.
Proof.
  intros (G1 & G2 & _ & H1) (_ & _ & _ & H2). split; [exact G1|]. split; [exact G2|]. split; [intros []|].
  intros i j X. apply in_app_or in X as [X|X]; auto.
Qed.
Definition flip (W : wd) : wd := map (fun p => (snd p, fst p)) W.
Lemma in_flip W i j : In (i, j) (flip W) <-> In (j, i) W.
Proof.
  unfold flip. rewrite in_map_iff. split.
  - intros ([a c] & E & X). cbn in E. inversion E; subst. exact X.
  - intros X. exists (j, i). auto.
Qed.
Lemma ids_flip b W g g' : ids b W g g' -> ids b (flip W) g' g.
Proof.
  intros (G1 & G2 & _ & H1). split; [exact G2|]. split; [exact G1|]. split; [intros []|].
  intros i j X. apply (proj1 (in_flip W i j)) in X. apply H1 in X as (A & B & C). split; [exact B|]. split; [exact A|]. intros k. rewrite C. tauto.
Qed.
Lemma corr_flip_both b W : (forall v w, corr b b W v w -> corr b b (flip W) w v) /\ (forall o p, corr_obj b b W o p -> corr_obj b b (flip W) p o).
Proof.
  assert (L : forall vs, Forall (fun v => forall w, corr b b W v w -> corr b b (flip W) w v) vs ->
    forall ws, Forall2 (corr b b W) vs ws -> Forall2 (corr b b (flip W)) ws vs).
  { intros vs F ws H. induction H; constructor; inversion F; subst; auto. }
  assert (L2 : forall ps : list (str * value), Forall (fun v => forall w, corr b b W v w -> corr b b (flip W) w v) (map snd ps) ->
    forall qs, corr_pairs b b W ps qs -> corr_pairs b b (flip W) qs ps).
  { intros ps F qs H. induction H as [|x y ps qs [E H] _ IH]; constructor; inversion F; subst; auto. apply IH; auto. }
  apply value_obj_ind2; try (intros; match goal with H : corr b b W _ _ |- _ => inversion H; subst end; constructor; auto; fail).
  - intros id t vs F w H. inversion H; subst. constructor; auto. apply (proj2 (in_flip _ _ _)); auto.
  - intros id t vs F w H. inversion H; subst. constructor; auto. apply (proj2 (in_flip _ _ _)); auto.
  - intros id ps par Hps Hpar p H. inversion H; subst; constructor; try (apply (proj2 (in_flip _ _ _)); auto; fail); auto; apply L2; auto.
Qed.
Lemma corr_flip b W v w : corr b b W v w -> corr b b (flip W) w v.
Proof. apply corr_flip_both. Qed.
Definition scalar (v : value) : Prop := match v with VArr _ | VTup _ | VObj _ => False | _ => True end.
Lemma scalar_corr b W v : scalar v -> corr b b W v v.
Proof. destruct v; try contradiction; constructor. Qed.
Lemma num_scalar w v : num_value w = Some v -> scalar v.
Proof.
  unfold num_value. destruct (double_under w); [discriminate|]. destruct (split_point w) as [a [c|]].
  - destruct (existsb _ _); [discriminate|]. destruct (_ ++ _); [discriminate|]. intros E; inversion E; exact I.
  - destruct (digits a); [discriminate|]. intros E; inversion E; exact I.
Qed.
Lemma un_scalar op v w : un_value op v = Some w -> scalar w.
Proof. destruct op, v; cbn; try discriminate; intros E; inversion E; exact I. Qed.
Lemma op_scalar op v w u : op_value op v w = Some u -> scalar u.
Proof.
  destruct v, w; destruct op; cbn; try (intros E; discriminate E); try (intros E; inversion E; exact I);
    match goal with |- (if ?b then _ else _) = _ -> _ => destruct b end; try discriminate; intros E; inversion E; exact I.
Qed.
Lemma const_scalar n v : assoc n constants = Some v -> scalar v.
Proof. intros E. apply assoc_in in E. cbn in E. repeat (destruct E as [E|E]; [inversion E; exact I|]). destruct E. Qed.

(** [x] is later than [A], and [Wf] holds of the files loaded *)
Definition pastw (Wf : shared -> Prop) (A x : est) : Prop :=
  (forall n w, assoc n (fst A) = Some w -> assoc n (fst x) = Some w) /\ g_desc (sh_g (snd A)) (sh_g (snd x)) /\ Wf (snd x).
Notation past := (pastw wfvals).
Lemma past_self (Wf : shared -> Prop) x : g_ok (sh_g (snd x)) -> Wf (snd x) -> pastw Wf x x.
Proof. intros G W. split; [auto|]. split; [apply desc_refl; auto|exact W]. Qed.

(** ** Related results *)
Section Rel.
Context `{U : Unicode}.
(** what includes mean in the two runs *)
Variables inc inc' : inc_ty -> str -> ES value.
Variable lim : N -> bool.
(** [ge d d']: the second run may be at depth [d'] where the first is at [d] *)
Variable ge : N -> N -> Prop.
Hypothesis ge_succ : forall d d', ge d d' -> ge (d + 1) (d' + 1).
Hypothesis lim_down : forall d d', ge d d' -> lim d = true -> lim d' = true.
(** the globals that are read, the globals that are defined *)
Variables S D : str -> Prop.
(** instances are newer than [base] *)
Variable base : N.
(** Are there includes? *)
Variable V : Prop.
(** What is true of the files loaded in the two runs; more instances and more correspondence do no harm. *)
Variable Tb : wd -> shared -> shared -> Prop.
Hypothesis Tb_mono : forall W W' h h', incl W W' -> Tb W h h' -> Tb W' h h'.
Hypothesis Tb_g : forall W h h' g g', g_desc (sh_g h) g -> g_desc (sh_g h') g' -> Tb W h h' -> Tb W (set_g h g) (set_g h' g').
(** What is true of the files loaded in each of the runs. *)
Variable Wf : shared -> Prop.
Hypothesis Wf_g : forall h g, Wf h -> Wf (set_g h g).
(** the two runs come from these states *)
Variables A B : est.
(** a correspondence that holds throughout *)
Variable Wb : wd.

Notation co := (corr base base).
Definition finds (W : wd) (F : str -> Prop) (l l' : list (str * value)) : Prop :=
  forall n v, F n -> assoc n l = Some v -> exists w, assoc n l' = Some w /\ co W v w.
Definition agree (W : wd) (h h' : shared) : Prop :=
  ids base W (sh_g h) (sh_g h') /\ Tb W h h'.
Definition inv (W : wd) (x y : est) : Prop :=
  finds W S (fst x) (fst y) /\ free D (fst x) (fst y) /\ pastw Wf A x /\ pastw Wf B y /\ agree W (snd x) (snd y) /\ incl Wb W.
Definition rel {T} (W : wd) (Q : wd -> T -> T -> Prop) (m m' : ES T) : Prop := forall x y a x',
  inv W x y -> m x = Some (a, x') ->
  exists a' y' W', m' y = Some (a', y') /\ incl W W' /\ Q W' a a' /\ inv W' x' y'.

Lemma finds_weaken W (F F' : str -> Prop) l l' : (forall n, F' n -> F n) -> finds W F l l' -> finds W F' l l'.
Proof. intros H K n v Hn. apply K; auto. Qed.
Lemma finds_mono W W' F l l' : incl W W' -> finds W F l l' -> finds W' F l l'.
Proof. intros I H n v Hn X. destruct (H n v Hn X) as (w & Y & C). exists w. split; auto. eapply History.corr_mono; eauto. Qed.
Lemma finds_pairs W F l l' : corr_pairs base base W l l' -> finds W F l l'.
Proof.
  intros C n v _ X. pose proof (History.corr_assoc base base W l l' n C) as H. rewrite X in H. destruct (assoc n l'); [eauto|contradiction].
Qed.


Lemma rel_ret {T} W (Q : wd -> T -> T -> Prop) a a' : Q W a a' -> rel W Q (eret a) (eret a').
Proof. intros H x y b x' F E. inversion E; subst. exists a', y, W. split; [reflexivity|]. split; [apply incl_refl|]. auto. Qed.
Lemma rel_fail {T} W (Q : wd -> T -> T -> Prop) m : rel W Q efail m.
Proof. intros x y b x' F E. discriminate. Qed.
Lemma rel_lift {T} W (Q : wd -> T -> T -> Prop) o o' : (forall a, o = Some a -> exists a', o' = Some a' /\ Q W a a') -> rel W Q (elift o) (elift o').
Proof. destruct o as [a|]; intros H; [|apply rel_fail]. destruct (H a eq_refl) as (a' & -> & K). apply rel_ret; auto. Qed.
Lemma rel_bind {T T'} W (Q : wd -> T -> T -> Prop) (Q' : wd -> T' -> T' -> Prop) m m' f f' :
  rel W Q m m' -> (forall W' a a', incl W W' -> Q W' a a' -> rel W' Q' (f a) (f' a')) -> rel W Q' (ebind m f) (ebind m' f').
Proof.
  intros Hm Hf x y b z F E. apply ebind_some in E as (a & x1 & E1 & E2).
  destruct (Hm _ _ _ _ F E1) as (a' & y1 & W1 & E1' & I1 & Qa & F1).
  destruct (Hf _ _ _ I1 Qa _ _ _ _ F1 E2) as (b' & y2 & W2 & E2' & I2 & Qb & F2).
  exists b', y2, W2. split; [|split; [eapply incl_tran; eauto|auto]]. unfold ebind. rewrite E1'. exact E2'.
Qed.
Lemma rel_fresh W : rel W (fun W i j => In (i, j) W /\ base <= i /\ base <= j) fresh fresh.
Proof.
  intros [gl sh] [gl' sh'] i x' (F1 & F2 & (F3 & P1 & P2) & (F4 & P3 & P4) & [G Hv] & F6) E. injection E as <- <-. cbn [fst snd] in *.
  assert (I : incl W ((g_next (sh_g sh), g_next (sh_g sh')) :: W)) by apply incl_tl, incl_refl.
  exists (g_next (sh_g sh')). eexists. exists ((g_next (sh_g sh), g_next (sh_g sh')) :: W). split; [reflexivity|]. split; [exact I|]. split.
  - split; [left; reflexivity|]. destruct G as ([_ ?] & [_ ?] & _). auto.
  - split; [eapply finds_mono; eauto|]. split; [exact F2|]. cbn [fst snd]. split; [split; [exact F3|split; [apply desc_bump; exact P1|apply Wf_g; exact P2]]|].
    split; [split; [exact F4|split; [apply desc_bump; exact P3|apply Wf_g; exact P4]]|]. split; [|eapply incl_tran; eauto].
    split; [apply History.ids_bump; exact G|]. apply Tb_g; [apply desc_bump, desc_refl; apply G|apply desc_bump, desc_refl; apply G|]. exact (Tb_mono _ _ _ _ I Hv).
Qed.
(** both sides use the keyword Obj [k] *)
Lemma force_desc g0 g k : g_desc g0 g -> g_desc g0 (History.g_force g k).
Proof. intros H. unfold History.g_force. destruct (g_sent g k) eqn:E; auto. apply desc_sent; auto. Qed.
Lemma esentinel_force k x : esentinel k x = Some (obj_empty (History.g_force_id (sh_g (snd x)) k), (fst x, set_g (snd x) (History.g_force (sh_g (snd x)) k))).
Proof.
  destruct x as [gl [vals op lg g]]. unfold esentinel, History.g_force, History.g_force_id. cbn [fst snd sh_g]. destruct (g_sent g k) eqn:E; reflexivity.
Qed.
Definition is_sent (k : inc_ty) (o : obj) (x : est) : Prop := exists i, o = obj_empty i /\ g_sent (sh_g (snd x)) k = Some i.
Lemma force_inv W x y k : inv W x y -> let x' := (fst x, set_g (snd x) (History.g_force (sh_g (snd x)) k)) in
  let y' := (fst y, set_g (snd y) (History.g_force (sh_g (snd y)) k)) in
  exists W', incl W W' /\ inv W' x' y' /\ In (History.g_force_id (sh_g (snd x)) k, History.g_force_id (sh_g (snd y)) k) W' /\
    g_sent (sh_g (snd x')) k = Some (History.g_force_id (sh_g (snd x)) k) /\ g_sent (sh_g (snd y')) k = Some (History.g_force_id (sh_g (snd y)) k).
Proof.
  destruct x as [gl sh], y as [gl' sh']. intros (F1 & F2 & (F3 & P1 & P2) & (F4 & P3 & P4) & [G Hv] & F6). cbn [fst snd] in *. cbv zeta.
  destruct (History.ids_force _ _ _ _ _ _ k G) as (W' & I & G' & Hin). exists W'. split; [exact I|]. split; [|split; [exact Hin|]].
  - split; [eapply finds_mono; eauto|]. split; [exact F2|]. cbn [fst snd]. split; [split; [exact F3|split; [apply force_desc; exact P1|apply Wf_g; exact P2]]|].
    split; [split; [exact F4|split; [apply force_desc; exact P3|apply Wf_g; exact P4]]|]. split; [|eapply incl_tran; eauto].
    split; [exact G'|]. apply Tb_g; [apply force_desc, desc_refl; apply G|apply force_desc, desc_refl; apply G|]. exact (Tb_mono _ _ _ _ I Hv).
  - cbn. split; apply History.force_sent; apply G.
Qed.
Lemma rel_sent W k : rel W (fun W o p => co W (VObj o) (VObj p)) (esentinel k) (esentinel k).
Proof.
  intros x y o x' F E. rewrite esentinel_force in E. injection E as <- <-. destruct (force_inv W x y k F) as (W' & I & F' & Hin & _).
  rewrite esentinel_force. eexists _, _, W'. split; [reflexivity|]. split; [exact I|]. split; [|exact F']. constructor. constructor; [exact Hin|constructor].
Qed.
Lemma rel_keyword ks : forall W o p, corr_obj base base W o p -> rel W (fun _ a b => a = b) (ev_keyword o ks) (ev_keyword p ks).
Proof.
  induction ks as [|k ks IH]; intros W o p C; cbn [ev_keyword]; [apply rel_ret; reflexivity|].
  intros x y a x' F E. apply ebind_some in E as (s & x1 & E1 & E2). rewrite esentinel_force in E1. injection E1 as <- <-.
  destruct (force_inv W x y k F) as (W' & I & F' & Hin & S1 & S2). unfold ebind. rewrite esentinel_force.
  pose proof (History.corr_obj_id _ _ _ _ _ C) as Hop. apply I in Hop.
  pose proof F' as (_ & _ & _ & _ & [G _] & _). apply G in Hop as (_ & _ & K). specialize (K k).
  rewrite S1, S2 in K. change (obj_id (obj_empty ?i)) with i in E2. change (obj_id (obj_empty ?i)) with i.
  assert (Eq : (obj_id o =? History.g_force_id (sh_g (snd x)) k) = (obj_id p =? History.g_force_id (sh_g (snd y)) k)).
  { apply eq_true_iff_eq. rewrite !N.eqb_eq. split; intros X.
    - assert (X' : Some (History.g_force_id (sh_g (snd x)) k) = Some (obj_id o)) by congruence. apply K in X'. congruence.
    - assert (X' : Some (History.g_force_id (sh_g (snd y)) k) = Some (obj_id p)) by congruence. apply K in X'. congruence. }
  rewrite <- Eq. destruct (_ =? _).
  - inversion E2; subst. eexists _, _, W'. split; [reflexivity|]. split; [exact I|]. split; [reflexivity|exact F'].
  - apply (History.corr_obj_mono _ _ _ _ _ _ I) in C. destruct (IH W' o p C _ _ _ _ F' E2) as (a' & y' & W2 & E' & I2 & Qa & F2).
    exists a', y', W2. split; [exact E'|]. split; [eapply incl_tran; eauto|auto].
Qed.
Definition co_list (W : wd) (vs ws : list value) : Prop := Forall2 (co W) vs ws.
Lemma rel_emap {T T1 T2} (f : T1 -> ES value) (f' : T2 -> ES value) (h : T -> T1) (h' : T -> T2) l : forall W,
  Forall (fun a => forall W', incl W W' -> rel W' co (f (h a)) (f' (h' a))) l ->
  rel W co_list (emap f (map h l)) (emap f' (map h' l)).
Proof.
  induction l as [|a l IH]; intros W H; cbn [emap map]; [apply rel_ret; constructor|]. inversion H as [|? ? Ha Hl]; subst.
  eapply rel_bind; [apply Ha; apply incl_refl|]. intros W1 b b' I1 Qb. eapply rel_bind.
  - apply IH. eapply Forall_impl; [|exact Hl]. cbn beta. intros q Hq W' I'. apply Hq. eapply incl_tran; eauto.
  - intros W2 bs bs' I2 Qs. apply rel_ret. constructor; auto. eapply History.corr_mono; eauto.
Qed.
Definition co_ops (W : wd) (l l' : list (binop * value)) : Prop := Forall2 (fun p q => fst p = fst q /\ co W (snd p) (snd q)) l l'.
Lemma co_ops_mono W W' l l' : incl W W' -> co_ops W l l' -> co_ops W' l l'.
Proof. intros I H. induction H as [|p q l l' [E C] _ IH]; constructor; auto. split; auto. eapply History.corr_mono; eauto. Qed.
Lemma rel_emap_op (f f' : atom -> ES value) (h h' : atom -> atom) (l : list (binop * atom)) : forall W,
  Forall (fun a => forall W', incl W W' -> rel W' co (f (h (snd a))) (f' (h' (snd a)))) l ->
  rel W co_ops (emap (fun x => match x with (op, b) => do w <- f b;; eret (op, w) end) (map (fun p => match p with (op, c) => (op, h c) end) l))
               (emap (fun x => match x with (op, b) => do w <- f' b;; eret (op, w) end) (map (fun p => match p with (op, c) => (op, h' c) end) l)).
Proof.
  induction l as [|[op a] l IH]; intros W H; cbn [emap map]; [apply rel_ret; constructor|]. inversion H as [|? ? Ha Hl]; subst. cbn [snd] in Ha.
  eapply rel_bind with (Q := fun W (p q : binop * value) => fst p = fst q /\ co W (snd p) (snd q)).
  - eapply rel_bind; [apply Ha; apply incl_refl|]. intros W1 b b' I1 Qb. apply rel_ret. auto.
  - intros W1 p q I1 Qp. eapply rel_bind.
    + apply IH. eapply Forall_impl; [|exact Hl]. cbn beta. intros z Hz W' I'. apply Hz. eapply incl_tran; eauto.
    + intros W2 bs bs' I2 Qs. apply rel_ret. constructor; auto. destruct Qp. split; auto. eapply History.corr_mono; eauto.
Qed.
Lemma rel_deep {T} W (Q : wd -> T -> T -> Prop) d d' m m' : ge d d' -> rel W Q m m' -> rel W Q (deep lim d m) (deep lim d' m').
Proof. intros L H. unfold deep. destruct (lim d) eqn:E; [|apply rel_fail]. rewrite (lim_down d d' L E). exact H. Qed.
Lemma rel_name W fields fields' (g : bool) (n : str) : finds W (fun k => k = key g n) fields fields' ->
  (g = true -> S (c_at :: n)) -> rel W co (ev_name fields g n) (ev_name fields' g n).
Proof.
  intros Hf Hs. unfold ev_name. destruct g.
  - intros x y a x' F E. unfold ebind, eglobals in *. apply elift_some in E as [E ->]. pose proof (proj1 F) as F1.
    destruct (F1 _ _ (Hs eq_refl) E) as (w & X & Q). rewrite X. exists w, y, W. split; [reflexivity|]. split; [apply incl_refl|]. auto.
  - destruct (assoc n constants) eqn:Ec; [apply rel_ret; apply scalar_corr; eapply const_scalar; eauto|]. destruct (assoc n keywords).
    + eapply rel_bind; [apply rel_sent|]. intros W' o p I Q. apply rel_ret. exact Q.
    + apply rel_lift. intros a X. apply (Hf n a eq_refl X).
Qed.
Lemma co_same W v w : co W v w -> same v w. Proof. apply History.corr_erase. Qed.
Lemma rel_opv W op v v' w w' : co W v v' -> co W w w' -> rel W co (elift (op_value op v w)) (elift (op_value op v' w')).
Proof.
  intros Hv Hw. apply rel_lift. intros a E. exists a. split; [|apply scalar_corr; eapply op_scalar; eauto].
  apply co_same in Hv, Hw. rewrite <- op_value_erase, <- Hv, <- Hw, op_value_erase. exact E.
Qed.
Lemma rel_op W op v v' w w' : co W v v' -> co W w w' -> rel W co (ev_op op v w) (ev_op op v' w').
Proof.
  intros Hv Hw. pose proof (rel_opv W op v v' w w' Hv Hw) as L. unfold ev_op.
  destruct op; try exact L. destruct Hv; try exact L. destruct Hw; try exact L. cbn [arr_inner_type].
  destruct (most_specific _ _) as [[u c]|]; [|apply rel_fail]. eapply rel_bind; [apply rel_fresh|]. intros W' i' j' I (Hin & L1 & L2).
  apply rel_ret. constructor; auto. apply Forall2_app; eapply History.corr_list_mono; eauto.
Qed.
Definition co_acc (W : wd) (a b : option (value * binop)) : Prop :=
  match a, b with Some (v, op), Some (w, op') => co W v w /\ op = op' | None, None => True | _, _ => False end.
Lemma co_acc_mono W W' a b : incl W W' -> co_acc W a b -> co_acc W' a b.
Proof. intros I. destruct a as [[v op]|], b as [[w op']|]; cbn; auto. intros [C E]. split; auto. eapply History.corr_mono; eauto. Qed.
Lemma rel_add W acc acc' cur cur' : co_acc W acc acc' -> co W cur cur' -> rel W co (add_up acc cur) (add_up acc' cur').
Proof.
  destruct acc as [[v op]|], acc' as [[v' op']|]; cbn; try contradiction.
  - intros [H ->] K. apply rel_op; auto.
  - intros _ K. apply rel_ret; auto.
Qed.
Lemma rel_chain l : forall l' W acc acc' cur cur', co_ops W l l' -> co_acc W acc acc' -> co W cur cur' ->
  rel W co (ev_chain acc cur l) (ev_chain acc' cur' l').
Proof.
  induction l as [|[op v] l IH]; intros l' W acc acc' cur cur' H Ha Hc; inversion H as [|? [op' v'] ? l2 [Ho Hv] Hl]; subst; cbn [ev_chain]; [apply rel_add; auto|].
  cbn [fst snd] in *. subst op'. destruct (is_priority op).
  - eapply rel_bind; [apply rel_opv; eauto|]. intros W' a a' I Qa; apply IH; auto; [eapply co_ops_mono; eauto|eapply co_acc_mono; eauto].
  - eapply rel_bind; [apply rel_add; eauto|]. intros W' a a' I Qa; apply IH; auto; [eapply co_ops_mono; eauto|split; auto|eapply History.corr_mono; eauto].
Qed.

(** items *)
Definition co_opt (W : wd) (p q : option obj) : Prop := match p, q with Some a, Some b => corr_obj base base W a b | None, None => True | _, _ => False end.
Lemma co_opt_mono W W' p q : incl W W' -> co_opt W p q -> co_opt W' p q.
Proof. intros I. destruct p, q; cbn; auto. apply History.corr_obj_mono; auto. Qed.
Definition co_result (fields fields' : list pair_t) (W : wd) (r r' : list pair_t * option obj) : Prop :=
  exists new new', fst r = fields ++ new /\ fst r' = fields' ++ new' /\ corr_pairs base base W new new' /\ co_opt W (snd r) (snd r').
Lemma finds_snoc W F fields fields' f v v' : finds W F fields fields' -> co W v v' -> ~ In f (map fst fields') ->
  finds W F (fields ++ [(f, v)]) (fields' ++ [(f, v')]).
Proof.
  intros H Sv Nf n w Hn X. destruct (assoc n fields) as [u|] eqn:An.
  - rewrite (assoc_app_l _ _ _ _ An) in X. injection X as <-. destruct (H n u Hn An) as (u' & A' & Q).
    exists u'. split; auto. apply assoc_app_l. exact A'.
  - rewrite assoc_app_r in X by (apply assoc_none; exact An).
    cbn in X. destruct (str_eqb_spec f n) as [<-|]; [|discriminate]. injection X as <-. exists v'. split; auto.
    rewrite assoc_app_r by exact Nf. cbn. rewrite str_eqb_refl. reflexivity.
Qed.
Lemma inv_define W f v v' x y : inv W x y -> co W v v' ->
  (forall w, assoc f (fst A) = Some w -> False) -> (forall w, assoc f (fst B) = Some w -> False) -> inv W ((f, v) :: fst x, snd x) ((f, v') :: fst y, snd y).
Proof.
  intros (F1 & F2 & (F3 & P1 & P2) & (F4 & P3 & P4) & F5 & F6) C NA NB. cbn [fst snd] in *.
  split; [|split; [|split; [|split; [|auto]]]]; cbn [fst snd].
  - intros n w Hn X. cbn [assoc] in *. destruct (str_eqb f n); [injection X as <-; eauto|]. apply F1; auto.
  - intros n Dn X. cbn [assoc] in *. destruct (str_eqb f n); [discriminate|]. apply F2; auto.
  - split; [|auto]. intros n w X. cbn [assoc fst]. destruct (str_eqb_spec f n) as [->|]; [destruct (NA _ X)|auto].
  - split; [|auto]. intros n w X. cbn [assoc fst]. destruct (str_eqb_spec f n) as [->|]; [destruct (NB _ X)|auto].
Qed.
Lemma rel_items (F : str -> Prop) (J : list pair_t -> list pair_t -> Prop) (ev ev' : list pair_t -> expr -> ES value) (l : list (str * (expr * expr))) :
  (forall fl fl' f v v', J fl fl' -> ~ In f (map fst fl) -> ~ In f (map fst fl') -> J (fl ++ [(f, v)]) (fl' ++ [(f, v')])) ->
  (forall f, In f (map fst l) -> global_name f = true -> D f) ->
  forall W fields fields' parent parent',
  Forall (fun p => forall W' fields fields', incl W W' -> finds W' F fields fields' -> J fields fields' -> rel W' co (ev fields (fst (snd p))) (ev' fields' (snd (snd p)))) l ->
  finds W F fields fields' -> J fields fields' ->
  (forall f, In f (map fst l) -> In f (map fst fields') -> In f (map fst fields)) ->
  co_opt W parent parent' ->
  rel W (co_result fields fields') (ev_items ev (map left l) fields parent) (ev_items ev' (map right l) fields' parent').
Proof.
  intros Jsnoc.
  induction l as [|[f [e e']] its IH]; intros HD W fields fields' parent parent' H Hf Hj Hn Hp.
  { apply rel_ret. exists [], []. rewrite !app_nil_r. repeat split; auto. constructor. }
  inversion H as [|? ? He Hits]; subst. cbn [fst snd] in He.
  assert (Hits' : forall W', incl W W' -> Forall (fun p => forall W'' fields fields', incl W' W'' -> finds W'' F fields fields' -> J fields fields' -> rel W'' co (ev fields (fst (snd p))) (ev' fields' (snd (snd p)))) its).
  { intros W' I. eapply Forall_impl; [|exact Hits]. cbn beta. intros p Hp' W'' l1 l2 I'. apply Hp'. eapply incl_tran; eauto. }
  cbn [map left right fst snd] in *. change (left (f, (e, e'))) with (f, e). change (right (f, (e, e'))) with (f, e'). rewrite !ev_items_cons.
  destruct (kind_of_item f) eqn:K.
  - intros x y r z Fx E. unfold ebind at 1, eglobals in E. unfold ebind at 1, eglobals. pose proof Fx as (_ & Gx & (Pa & _) & (Pb & _) & _).
    destruct (assoc f (fst x)) eqn:X; [discriminate|]. pose proof (Gx f (HD f (or_introl eq_refl) (kind_is_global f K)) X) as X'. rewrite X'.
    assert (NA : forall w, assoc f (fst A) = Some w -> False) by (intros w Q; apply Pa in Q; congruence).
    assert (NB : forall w, assoc f (fst B) = Some w -> False) by (intros w Q; apply Pb in Q; congruence).
    revert E. apply rel_bind with (Q := co); [apply He; auto; apply incl_refl| |exact Fx]. intros W1 v v' I1 Sv.
    intros x0 y0 r0 z0 F0 E. unfold ebind, edefine in E. cbn [fst snd] in E. unfold ebind, edefine. cbn [fst snd].
    eapply (IH (fun g X => HD g (or_intror X)) W1 fields fields' parent parent'); eauto; cbn [fst].
    + eapply finds_mono; eauto.
    + intros g Y Z. apply Hn; auto. right; auto.
    + eapply co_opt_mono; eauto.
    + apply inv_define; auto.
  - destruct parent as [q|]; [apply rel_fail|].
    destruct parent' as [q|]; [contradiction|]. eapply rel_bind; [apply He; eauto; apply incl_refl|]. intros W1 v v' I1 Sv.
    destruct Sv; try apply rel_fail.
    apply IH; auto; [intros g X; apply HD; right; auto|eapply finds_mono; eauto|intros g X; apply Hn; right; auto].
  - destruct (mem_str f (map fst fields)) eqn:M; [apply rel_fail|].
    assert (Nf : ~ In f (map fst fields')).
    { intros X. apply (Hn f (or_introl eq_refl)) in X. apply mem_str_iff in X. congruence. }
    assert (Nf' : ~ In f (map fst fields)).
    { intros X. apply mem_str_iff in X. congruence. }
    destruct (mem_str f (map fst fields')) eqn:M'; [apply mem_str_iff in M'; contradiction|].
    eapply rel_bind; [apply He; eauto; apply incl_refl|]. intros W1 v v' I1 Sv x y r z Fx E.
    destruct (IH (fun g X => HD g (or_intror X)) W1 (fields ++ [(f, v)]) (fields' ++ [(f, v')]) parent parent') with (x := x) (y := y) (a := r) (x' := z)
      as (r' & y' & W2 & E' & I2 & (new & new' & E1 & E2 & E3 & E4) & F'); auto.
    + apply finds_snoc; auto. eapply finds_mono; eauto.
    + intros g X. rewrite !map_app. cbn. rewrite !in_app_iff. intros [Y|Y]; auto. left. apply Hn; auto. right; auto.
    + eapply co_opt_mono; eauto.
    + exists r', y', W2. split; [exact E'|]. split; [exact I2|]. split; [|exact F']. exists ((f, v) :: new), ((f, v') :: new').
      rewrite <- app_assoc in E1, E2. split; [exact E1|]. split; [exact E2|]. split; [|exact E4]. constructor; [|exact E3].
      split; [reflexivity|]. cbn. eapply History.corr_mono; eauto.
  - apply rel_fail.
Qed.
Lemma rel_single W (Q : wd -> value -> value -> Prop) lim' d d' fields fields' a a' : rel W Q (ev_atom inc lim d fields a) (ev_atom inc' lim' d' fields' a') ->
  rel W Q (ev_expr inc lim d fields (Ex a [])) (ev_expr inc' lim' d' fields' (Ex a' [])).
Proof.
  intros R x y r z Fx E. rewrite ev_atom_expr in E. destruct (R _ _ _ _ Fx E) as (r' & y' & W' & E' & K). exists r', y', W'. rewrite ev_atom_expr. auto.
Qed.

(** ** All of an evaluation *)
(** An include does the same. *)
Hypothesis rel_inc : forall W k p, V -> rel W co (inc k p) (inc' k p).
Variable k : str.
Variables b b' : option expr.
(** what is true of the fields where [k] is replaced *)
Variable J : list pair_t -> list pair_t -> Prop.
Hypothesis J_snoc : forall fl fl' f v v', J fl fl' -> ~ In f (map fst fl) -> ~ In f (map fst fl') -> J (fl ++ [(f, v)]) (fl' ++ [(f, v')]).
Hypothesis J_glob : global_name k = true -> forall fl fl', J fl fl'.
Hypothesis replaced : forall W g n d d' fields fields', hits k g n = true -> J fields fields' -> ge d d' ->
  rel W co (ev_expr inc lim d fields (whole b g n)) (ev_expr inc' lim d' fields' (whole b' g n)) /\
  rel W co (ev_atom inc lim d fields (operand b g n)) (ev_atom inc' lim d' fields' (operand b' g n)).
Lemma or_and (p q : bool) : p && q = true \/ V -> (p = true \/ V) /\ (q = true \/ V).
Proof. intros [H|H]; [apply andb_true_iff in H as [? ?]|]; auto. Qed.
Lemma or_all {T} (f : T -> bool) l : forallb f l = true \/ V -> forall a, In a l -> f a = true \/ V.
Proof. intros [H|H] a I; [|auto]. rewrite forallb_forall in H. auto. Qed.
Notation ok_expr e := (plain e = true \/ V -> (forall n, In n (reads e) -> global_name n = true -> S n) -> (forall n, In n (defines e) -> D n) ->
     forall W on d d' fields fields', ge d d' -> finds W (fun n => In n (reads e)) fields fields' -> (on = true -> J fields fields') ->
     rel W co (ev_expr inc lim d fields (sub k b on e)) (ev_expr inc' lim d' fields' (sub k b' on e))).
Lemma rel_ev :
  (forall a, plain_atom a = true \/ V -> (forall n, In n (reads_atom a) -> global_name n = true -> S n) -> (forall n, In n (defines_atom a) -> D n) ->
     forall W on d d' fields fields', ge d d' -> finds W (fun n => In n (reads_atom a)) fields fields' -> (on = true -> J fields fields') ->
     rel W co (ev_atom inc lim d fields (sub_atom k b on a)) (ev_atom inc' lim d' fields' (sub_atom k b' on a))) /\
  (forall e, ok_expr e).
Proof.
  assert (List : forall es, Forall (fun e => ok_expr e) es ->
    forallb plain es = true \/ V -> (forall n, In n (flat_map reads es) -> global_name n = true -> S n) -> (forall n, In n (flat_map defines es) -> D n) ->
    forall W on d d' fields fields', ge d d' -> finds W (fun n => In n (flat_map reads es)) fields fields' -> (on = true -> J fields fields') ->
    Forall (fun e => forall W', incl W W' -> rel W' co (ev_expr inc lim d fields (sub k b on e)) (ev_expr inc' lim d' fields' (sub k b' on e))) es).
  { intros es IH P HS HD W on d d' fields fields' L Hf Hj. rewrite Forall_forall in *. intros e Ie W' I.
    apply IH; auto.
    - eapply or_all; eauto.
    - intros n X. apply HS. apply in_flat_map. eauto.
    - intros n X. apply HD. apply in_flat_map. eauto.
    - eapply finds_mono; [exact I|]. eapply finds_weaken; [|exact Hf]. intros n X. apply in_flat_map. eauto. }
  apply ast_ind.
  - intros w _ _ _ W on d d' fields fields' L Hf _. apply rel_lift. intros a E. exists a. split; [exact E|apply scalar_corr; eapply num_scalar; eauto].
  - intros cs _ _ _ W on d d' fields fields' L Hf _. apply rel_lift. intros a E. exists a. split; [exact E|apply scalar_corr].
    destruct (str_value cs); inversion E; exact I.
  - intros g n _ HS _ W on d d' fields fields' L Hf Hj. cbn [reads_atom In sub_atom] in *.
    destruct (on && hits k g n) eqn:E.
    { apply andb_true_iff in E as [-> E]. apply replaced; auto. }
    apply rel_name.
    + eapply finds_weaken; [|exact Hf]. intros m ->. auto.
    + intros ->. apply HS; auto.
  - intros g n c IH P HS HD W on d d' fields fields' L Hf _. cbn [reads_atom In plain_atom defines_atom sub_atom] in *. rewrite !ev_dot.
    assert (IH' : forall W' fl fl', finds W' (fun n => In n (reads_atom c)) fl fl' -> rel W' co (ev_atom inc lim (d + 1) fl c) (ev_atom inc' lim (d' + 1) fl' c)).
    { intros W' fl fl' Hl. pose proof (IH P (fun m X => HS m (or_intror X)) HD W' false (d + 1) (d' + 1) fl fl' (ge_succ _ _ L) Hl ltac:(discriminate)) as R.
      rewrite !(proj1 (sub_off_both k _) c) in R. exact R. }
    assert (Hsub : forall W', incl W W' -> finds W' (fun n => In n (reads_atom c)) fields fields') by (intros W' I; eapply finds_mono; [exact I|]; eapply finds_weaken; [|exact Hf]; cbn; auto).
    eapply rel_bind.
    { apply rel_name; [eapply finds_weaken; [|exact Hf]; intros m ->; auto|]. intros ->. apply HS; auto. }
    intros W1 v v' I1 Sv.
    assert (Ix : forall vs ws u u', Forall2 (co W1) vs ws -> rel W1 co (do q <- ev_atom inc lim (d + 1) fields c;; elift (ev_index vs q)) (do q <- ev_atom inc' lim (d' + 1) fields' c;; elift (ev_index ws q)) \/ u <> u' :> unit).
    { intros vs ws u u' Hv. left. eapply rel_bind; [apply IH'; apply Hsub; exact I1|]. intros W2 p q I2 Spq. apply rel_lift. intros w X.
      unfold ev_index in *. destruct Spq; try discriminate. destruct (_ && _); [|discriminate].
      pose proof (History.corr_nth base base W1 vs ws (Z.to_nat z) Hv) as N. rewrite X in N. destruct (nth_error ws (Z.to_nat z)); [|contradiction].
      eexists. split; [reflexivity|]. eapply History.corr_mono; eauto. }
    destruct Sv as [| | | | |i j t vs ws Hin B1 B2 Hv|i j ts vs ws Hin B1 B2 Hv|o p Co]; try apply rel_fail.
    + destruct (Ix vs ws tt tt Hv) as [R|N]; [exact R|congruence].
    + destruct (Ix vs ws tt tt Hv) as [R|N]; [exact R|congruence].
    + assert (Hp : finds W1 (fun n => In n (reads_atom c)) (obj_pairs o) (obj_pairs p)) by (apply finds_pairs; inversion Co; subst; auto).
      destruct c; try apply rel_fail; destruct glob; try apply rel_fail; apply IH'; exact Hp.
  - intros op a IH P HS HD W on d d' fields fields' L Hf Hj. rewrite !sub_un, !ev_un. eapply rel_bind; [apply IH; eauto|].
    intros W1 v v' I1 Sv. apply rel_lift. intros w E. exists w. split; [|apply scalar_corr; eapply un_scalar; eauto].
    apply co_same in Sv. rewrite <- un_value_erase, <- Sv, un_value_erase. exact E.
  - intros es IH P HS HD W on d d' fields fields' L Hf Hj. rewrite !sub_arr, !ev_arr. apply rel_deep; [auto|]. eapply rel_bind.
    { apply rel_emap. apply (List es IH P HS HD); [auto|exact Hf|exact Hj]. }
    intros W1 vs ws I1 E. rewrite (History.corr_types _ _ _ _ _ E). destruct (lub _); [|apply rel_fail]. eapply rel_bind; [apply rel_fresh|].
    intros W2 i j I2 (Hin & L1 & L2). apply rel_ret. constructor; auto. eapply History.corr_list_mono; eauto.
  - intros es IH P HS HD W on d d' fields fields' L Hf Hj. rewrite !sub_tup, !ev_tup. apply rel_deep; [auto|]. eapply rel_bind.
    { apply rel_emap. apply (List es IH P HS HD); [auto|exact Hf|exact Hj]. }
    intros W1 vs ws I1 E. eapply rel_bind; [apply rel_fresh|].
    intros W2 i j I2 (Hin & L1 & L2). apply rel_ret. rewrite (History.corr_types _ _ _ _ _ E). constructor; auto. eapply History.corr_list_mono; eauto.
  - intros its IH P HS HD W on d d' fields fields' L Hf Hj. rewrite !sub_obj, !ev_obj. apply rel_deep; [auto|].
    cbn [plain_atom reads_atom defines_atom] in *. eapply rel_bind.
    { set (pr := fun p : str * expr => (fst p, (sub k b (on && global_name k) (snd p), sub k b' (on && global_name k) (snd p)))).
      replace (map (fun p : str * expr => let (f, e) := p in (f, sub k b (on && global_name k) e)) its) with (map left (map pr its))
        by (rewrite map_map; apply map_ext; intros []; reflexivity).
      replace (map (fun p : str * expr => let (f, e) := p in (f, sub k b' (on && global_name k) e)) its) with (map right (map pr its))
        by (rewrite map_map; apply map_ext; intros []; reflexivity).
      assert (Names : forall f, In f (map fst (map pr its)) -> In f (map fst its)) by (intros f; rewrite map_map; auto).
      apply rel_items with (F := fun _ => True) (J := fun _ _ => True); auto.
      - intros f X G. apply Names in X. apply in_map_iff in X as ([f' e] & <- & X). apply HD. apply in_flat_map. exists (f', e). split; auto.
        cbn [fst] in G. rewrite G. apply in_or_app. left. cbn. auto.
      - rewrite Forall_forall in *. intros q Iq W1 fl fl' I1 Hl _. apply in_map_iff in Iq as ([f e] & <- & Ip).
        unfold pr. cbn [fst snd]. apply (IH _ Ip).
        + exact (or_all _ _ P _ Ip).
        + intros n X G. apply HS; auto. apply filter_In. split; auto. apply in_flat_map. exists (f, e). auto.
        + intros n X. apply HD. apply in_flat_map. exists (f, e). split; auto. apply in_or_app. auto.
        + auto.
        + eapply finds_weaken; [|exact Hl]. intros m _. exact I.
        + intros E. apply andb_true_iff in E as [_ E]. apply J_glob; auto.
      - intros n v _ X. discriminate.
      - exact I. }
    intros W1 [ps par] [ps' par'] I1 (new & new' & E1 & E2 & E3 & E4). cbn [fst snd app] in *. subst new new'.
    eapply rel_bind; [apply rel_fresh|]. intros W2 i j I2 (Hin & L1 & L2). apply rel_ret. apply (History.corr_pairs_mono _ _ _ _ _ _ I2) in E3.
    apply (co_opt_mono _ _ _ _ I2) in E4. constructor. destruct par, par'; try contradiction; constructor; auto.
  - intros e p IH IH2 P HS HD W on d d' fields fields' L Hf Hj. destruct P as [P|HV]; [discriminate|]. rewrite !sub_inc, !ev_inc. cbn [reads_atom defines_atom] in *.
    apply rel_deep; [auto|]. eapply rel_bind.
    { apply IH; auto.
      - intros n X. apply HS. apply in_or_app. auto.
      - intros n X. apply HD. apply in_or_app. auto.
      - eapply finds_weaken; [|exact Hf]. intros n X. apply in_or_app. auto. }
    intros W1 v v' I1 Sv. destruct Sv as [| | | |s| | |o q Co]; try apply rel_fail.
    + destruct p; [apply rel_fail|apply rel_inc; exact HV].
    + eapply rel_bind; [apply rel_keyword; exact Co|]. intros W2 ty ty' I2 <-. destruct ty as [ty|]; [|apply rel_fail].
      destruct p as [e2|]; [|apply rel_fail]. eapply rel_bind.
      { apply (IH2 e2 eq_refl); auto.
        - intros n X. apply HS. apply in_or_app. auto.
        - intros n X. apply HD. apply in_or_app. auto.
        - apply (finds_mono W); [eapply incl_tran; eauto|]. eapply finds_weaken; [|exact Hf]. intros n X. apply in_or_app. auto. }
      intros W3 u u' I3 Su. destruct Su; try apply rel_fail. apply rel_inc; exact HV.
  - intros a l IHa IHl P HS HD W on d d' fields fields' L Hf Hj. cbn [plain reads defines] in *. apply or_and in P as [Pa Pl].
    rewrite !sub_Ex. destruct (is_name a l) as [[g n]|] eqn:En.
    { destruct a; try discriminate. destruct l; try discriminate. injection En as -> ->.
      destruct (on && hits k g n) eqn:E.
      - apply andb_true_iff in E as [-> E]. apply replaced; auto.
      - apply rel_single. cbn in HS, Hf. apply rel_name.
        + eapply finds_weaken; [|exact Hf]. intros m ->. auto.
        + intros ->. apply HS; auto. }
    rewrite !ev_expr_Ex. eapply rel_bind.
    { apply IHa; eauto.
      - intros n X. apply HS. apply in_or_app. auto.
      - intros n X. apply HD. apply in_or_app. auto.
      - eapply finds_weaken; [|exact Hf]. intros n X. apply in_or_app. auto. }
    intros W1 v v' I1 Sv. eapply rel_bind.
    { apply rel_emap_op with (f := ev_atom inc lim d fields) (f' := ev_atom inc' lim d' fields') (h := sub_atom k b on) (h' := sub_atom k b' on).
      rewrite Forall_forall in *. intros [op c] Ib W2 I2. cbn [snd]. apply (IHl _ Ib); auto.
      - exact (or_all _ _ Pl _ Ib).
      - intros n X. apply HS. apply in_or_app. right. apply in_flat_map. exists (op, c). auto.
      - intros n X. apply HD. apply in_or_app. right. apply in_flat_map. exists (op, c). auto.
      - apply (finds_mono W); [eapply incl_tran; eauto|]. eapply finds_weaken; [|exact Hf]. intros n X. apply in_or_app. right. apply in_flat_map. exists (op, c). auto. }
    intros W2 vs ws I2 Sw. apply rel_chain; auto; [exact I|eapply History.corr_mono; eauto].
Qed.
(** Items, after different beginnings; in those marked [true], the name is replaced. *)
Lemma rel_some_items (its : list (bool * (str * expr))) W d d' fields fields' parent parent' : item_plain (map snd its) = true \/ V -> ge d d' ->
  (forall n, In n (item_reads (map snd its)) -> global_name n = true -> S n) -> (forall n, In n (item_defines (map snd its)) -> D n) ->
  finds W (fun n => In n (item_reads (map snd its))) fields fields' -> J fields fields' \/ Forall (fun p => fst p = false) its ->
  (forall f, In f (map fst (map snd its)) -> In f (map fst fields') -> In f (map fst fields)) ->
  co_opt W parent parent' ->
  rel W (co_result fields fields') (ev_items (ev_expr inc lim d) (with_sub k b its) fields parent) (ev_items (ev_expr inc' lim d') (with_sub k b' its) fields' parent').
Proof.
  intros P L HS HD Hf Hj Hn Hp.
  set (pr := fun p : bool * (str * expr) => (fst (snd p), (sub k b (fst p) (snd (snd p)), sub k b' (fst p) (snd (snd p))))).
  assert (E1 : with_sub k b its = map left (map pr its)) by (unfold with_sub; rewrite map_map; apply map_ext; intros [? []]; reflexivity).
  assert (E2 : with_sub k b' its = map right (map pr its)) by (unfold with_sub; rewrite map_map; apply map_ext; intros [? []]; reflexivity).
  rewrite E1, E2. assert (Names : forall f, In f (map fst (map pr its)) -> In f (map fst (map snd its))) by (intros f; rewrite !map_map; auto).
  apply rel_items with (F := fun n => In n (item_reads (map snd its))) (J := fun fl fl' => J fl fl' \/ Forall (fun p => fst p = false) its); auto.
  - intros fl fl' f v v' [X|X] N1 N2; auto.
  - intros f X G. apply Names in X. apply in_map_iff in X as ([f' e] & <- & X). apply HD. apply in_flat_map. exists (f', e). split; auto.
    cbn [fst] in *. rewrite G. apply in_or_app. left. cbn. auto.
  - apply Forall_forall. intros q Iq W1 fl fl' I1 Hl Jl. apply in_map_iff in Iq as ([on [f e]] & <- & Ip).
    pose proof (in_map snd _ _ Ip) as Ip'. cbn [snd] in Ip'. unfold pr. cbn [fst snd]. apply (proj2 rel_ev); auto.
    + exact (or_all _ _ P _ Ip').
    + intros n X. apply HS. apply in_flat_map. exists (f, e). auto.
    + intros n X. apply HD. apply in_flat_map. exists (f, e). split; auto. apply in_or_app. auto.
    + eapply finds_weaken; [|exact Hl]. intros n X. apply in_flat_map. exists (f, e). auto.
    + intros ->. destruct Jl as [Jl|Jl]; auto. rewrite Forall_forall in Jl. specialize (Jl _ Ip). discriminate.
Qed.
End Rel.

(** ** Without substitution *)
Section General.
Context `{U : Unicode}.
Variables (inc inc' : inc_ty -> str -> ES value) (lim : N -> bool) (ge : N -> N -> Prop) (ge_succ : forall d d', ge d d' -> ge (d + 1) (d' + 1))
  (lim_down : forall d d', ge d d' -> lim d = true -> lim d' = true) (S D : str -> Prop) (base : N) (V : Prop) (Tb : wd -> shared -> shared -> Prop)
  (Tb_mono : forall W W' h h', incl W W' -> Tb W h h' -> Tb W' h h')
  (Tb_g : forall W h h' g g', g_desc (sh_g h) g -> g_desc (sh_g h') g' -> Tb W h h' -> Tb W (set_g h g) (set_g h' g'))
  (Wf : shared -> Prop) (Wf_g : forall h g, Wf h -> Wf (set_g h g)) (A B : est) (Wb : wd) (rel_inc : forall W k p, V -> rel S D base Tb Wf A B Wb W (corr base base) (inc k p) (inc' k p)).
Lemma gen_all_items its W d d' fields fields' parent parent' :
  item_plain its = true \/ V -> ge d d' ->
  (forall n, In n (item_reads its) -> global_name n = true -> S n) -> (forall n, In n (item_defines its) -> D n) ->
  finds base W (fun n => In n (item_reads its)) fields fields' ->
  (forall f, In f (map fst its) -> In f (map fst fields') -> In f (map fst fields)) ->
  co_opt base W parent parent' ->
  rel S D base Tb Wf A B Wb W (co_result base fields fields') (ev_items (ev_expr inc lim d) its fields parent) (ev_items (ev_expr inc' lim d') its fields' parent').
Proof.
  intros P L HS HD Hf Hn Hp.
  assert (M : map snd (map (fun p => (false, p)) its) = its) by (rewrite map_map; apply map_id).
  assert (Ws : with_sub [] None (map (fun p => (false, p)) its) = its).
  { unfold with_sub. rewrite map_map. rewrite <- (map_id its) at 2. apply map_ext. intros [f e]. rewrite sub_none. reflexivity. }
  rewrite <- Ws at 1. rewrite <- Ws at 2. apply rel_some_items with (ge := ge) (V := V) (J := fun _ _ => False); rewrite ?M; auto; try discriminate; try contradiction.
  right. apply Forall_forall. intros q Y. apply in_map_iff in Y as (p & <- & Y). reflexivity.
Qed.
Lemma gen_expr e W d d' fields fields' :
  plain e = true \/ V -> ge d d' ->
  (forall n, In n (reads e) -> global_name n = true -> S n) -> (forall n, In n (defines e) -> D n) ->
  finds base W (fun n => In n (reads e)) fields fields' ->
  rel S D base Tb Wf A B Wb W (corr base base) (ev_expr inc lim d fields e) (ev_expr inc' lim d' fields' e).
Proof.
  intros P L HS HD Hf.
  pose proof (proj2 (rel_ev inc inc' lim ge ge_succ lim_down S D base V Tb Tb_mono Tb_g Wf Wf_g A B Wb rel_inc [] None None (fun _ _ => False)
    ltac:(cbn; discriminate) ltac:(contradiction)) e P HS HD W false d d' fields fields' L Hf ltac:(discriminate)) as R.
  rewrite sub_off in R. exact R.
Qed.
End General.

(** ** Both runs are runs of the program *)
(** the same files are loaded, in the same order *)
Definition tab (base : N) (V : Prop) (W : wd) (h h' : shared) : Prop := V -> corr_pairs base base W (sh_vals h) (sh_vals h') /\ sh_open h = sh_open h'.
Lemma tab_mono base V W W' h h' : incl W W' -> tab base V W h h' -> tab base V W' h h'.
Proof. intros I H v. destruct (H v). split; auto. eapply History.corr_pairs_mono; eauto. Qed.
Lemma tab_g base V W h h' g g' : g_desc (sh_g h) g -> g_desc (sh_g h') g' -> tab base V W h h' -> tab base V W (set_g h g) (set_g h' g').
Proof. intros _ _ H. exact H. Qed.
Section Same.
Context `{U : Unicode}.
Variables (fs : fsys) (file : option str).
Notation inc := (include_meaning fs file).
(** An include does the same. *)
Lemma rel_inc (S D : str -> Prop) base (V : Prop) A B Wb W k p : V -> rel S D base (tab base V) wfvals A B Wb W (corr base base) (inc k p) (inc k p).
Proof.
  intros HV [gl sh] [gl' sh'] v x' (F1 & F2 & (F3 & P1 & P2) & (F4 & P3 & P4) & [G Hv] & F6) E. cbn [fst snd] in *.
  pose proof (inc_gp fs file (g_desc (sh_g (snd A))) (fun g => desc_bump _ g) (fun g k => desc_sent _ g k) _ _ _ _ _ E P2 P1) as [D1 Wf1].
  pose proof (inc_globals fs file _ _ _ _ _ E) as Eg. cbn [fst] in Eg.
  assert (E0 := inc_globals_indep fs file k p gl [] sh v x' E).
  assert (Sr : History.srel base base False W (mkst file [] 1 1 [] sh) (mkst file [] 1 1 [] sh')).
  { split; [reflexivity|]. split; [reflexivity|]. split; [reflexivity|]. split; [reflexivity|]. split; [constructor|]. cbn [s_sh].
    destruct (Hv HV) as [Hc Ho]. split; [exact Hc|]. split; [exact Ho|exact G]. }
  pose proof (History.rel_finish base base False fs (load_file fs (inc_fuel fs)) (History.load_alike base base False fs (inc_fuel fs)) W k p 0 0 _ _ Sr) as R.
  unfold History.rel, History.orel in R. unfold include_meaning, inc_of in E0. cbn [fst snd] in E0.
  destruct (finish_include fs (load_file fs (inc_fuel fs)) k p 0 0 (mkst file [] 1 1 [] sh)) as [[a1|e1| |] s1]; try discriminate.
  destruct (finish_include fs (load_file fs (inc_fuel fs)) k p 0 0 (mkst file [] 1 1 [] sh')) as [[a2|e2| |] s2] eqn:E2; try contradiction.
  destruct R as (W' & I & (_ & _ & _ & _ & _ & (Rc & Ro & Rg)) & Ca). injection E0 as -> E0a E0b.
  assert (E' : inc k p ([], sh') = Some (a2, ([], s_sh s2))).
  { assert (Z : inc k p ([], sh') = Some (a2, st s2)) by (unfold include_meaning, inc_of; cbn [fst snd]; rewrite E2; reflexivity).
    pose proof (inc_globals fs file _ _ _ _ _ Z) as Z1. rewrite Z. destruct s2. cbn in *. rewrite Z1. reflexivity. }
  apply (inc_globals_indep fs file k p [] gl') in E'. cbn [snd] in E'.
  pose proof (inc_gp fs file (g_desc (sh_g (snd B))) (fun g => desc_bump _ g) (fun g k => desc_sent _ g k) _ _ _ _ _ E' P4 P3) as [D2 Wf2]. cbn [snd] in D2, Wf2.
  exists a2, (gl', s_sh s2), W'. split; [exact E'|]. split; [exact I|]. split; [exact Ca|]. cbn [fst snd].
  split; [rewrite Eg; eapply finds_mono; eauto|]. split; [rewrite Eg; exact F2|]. split; [split; [rewrite Eg; exact F3|auto]|]. split; [split; [exact F4|auto]|].
  split; [|eapply incl_tran; eauto]. unfold agree. cbn [fst snd]. rewrite <- E0b. split; [exact Rg|]. intros _. auto.
Qed.

Lemma rel_all_items lim (ge : N -> N -> Prop) (ge_succ : forall d d', ge d d' -> ge (d + 1) (d' + 1))
  (lim_down : forall d d', ge d d' -> lim d = true -> lim d' = true) (S D : str -> Prop) base (V : Prop) A B Wb its W d d' fields fields' parent parent' :
  item_plain its = true \/ V -> ge d d' ->
  (forall n, In n (item_reads its) -> global_name n = true -> S n) -> (forall n, In n (item_defines its) -> D n) ->
  finds base W (fun n => In n (item_reads its)) fields fields' ->
  (forall f, In f (map fst its) -> In f (map fst fields') -> In f (map fst fields)) ->
  co_opt base W parent parent' ->
  rel S D base (tab base V) wfvals A B Wb W (co_result base fields fields') (ev_items (ev_expr inc lim d) its fields parent) (ev_items (ev_expr inc lim d') its fields' parent').
Proof.
  exact (gen_all_items inc inc lim ge ge_succ lim_down S D base V (tab base V) (tab_mono base V) (tab_g base V) wfvals (fun h g H => H) A B Wb (rel_inc S D base V A B Wb) its W d d' fields fields' parent parent').
Qed.
Lemma rel_expr lim (ge : N -> N -> Prop) (ge_succ : forall d d', ge d d' -> ge (d + 1) (d' + 1))
  (lim_down : forall d d', ge d d' -> lim d = true -> lim d' = true) (S D : str -> Prop) base (V : Prop) A B Wb e W d d' fields fields' :
  plain e = true \/ V -> ge d d' ->
  (forall n, In n (reads e) -> global_name n = true -> S n) -> (forall n, In n (defines e) -> D n) ->
  finds base W (fun n => In n (reads e)) fields fields' ->
  rel S D base (tab base V) wfvals A B Wb W (corr base base) (ev_expr inc lim d fields e) (ev_expr inc lim d' fields' e).
Proof.
  exact (gen_expr inc inc lim ge ge_succ lim_down S D base V (tab base V) (tab_mono base V) (tab_g base V) wfvals (fun h g H => H) A B Wb (rel_inc S D base V A B Wb) e W d d' fields fields').
Qed.

(** ** One run *)
Definition goes (x y : est) : Prop := wfvals (snd x) -> g_ok (sh_g (snd x)) -> past x y.
Lemma past_trans x y z : past x y -> past y z -> past x z.
Proof. intros (A1 & D1 & _) (A2 & D2 & W2). split; [auto|]. split; [eapply desc_trans; eauto|exact W2]. Qed.
Lemma past_ok x y : past x y -> wfvals (snd y) /\ g_ok (sh_g (snd y)).
Proof. intros (_ & (_ & G & _) & W). auto. Qed.
Lemma goes_refl x : goes x x. Proof. intros Wf G. apply past_self; auto. Qed.
Lemma goes_trans x y z : goes x y -> goes y z -> goes x z.
Proof. intros H1 H2 Wf G. specialize (H1 Wf G). destruct (past_ok _ _ H1). eapply past_trans; eauto. Qed.
Lemma goes_fresh x i y : fresh x = Some (i, y) -> goes x y.
Proof. destruct x as [gl sh]. intros E. injection E as <- <-. intros Wf G. split; [auto|]. split; [apply desc_bump, desc_refl; exact G|exact Wf]. Qed.
Lemma goes_sent x k o y : esentinel k x = Some (o, y) -> goes x y.
Proof.
  rewrite esentinel_force. intros E. injection E as <- <-. intros Wf G. split; [auto|]. split; [apply force_desc, desc_refl; exact G|exact Wf].
Qed.
Lemma goes_def x y f v : assoc f (fst x) = None -> goes x y -> goes x ((f, v) :: fst y, snd y).
Proof.
  intros A H Wf G. destruct (H Wf G) as (K & D & W1). split; [|auto].
  intros n w E. cbn [fst assoc]. destruct (str_eqb_spec f n) as [<-|]; [congruence|auto].
Qed.
Lemma goes_inc k p x v y : inc k p x = Some (v, y) -> goes x y.
Proof.
  intros E Wf G. split; [rewrite (inc_globals _ _ _ _ _ _ _ E); auto|].
  apply (inc_gp fs file (g_desc (sh_g (snd x))) (fun g => desc_bump _ g) (fun g k => desc_sent _ g k) _ _ _ _ _ E Wf). apply desc_refl. exact G.
Qed.
Lemma goes_expr lim d fields e x v y : ev_expr inc lim d fields e x = Some (v, y) -> goes x y.
Proof. apply (proj2 (keeps_ev inc lim goes goes_refl goes_trans goes_fresh goes_sent goes_def goes_inc)). Qed.
Lemma goes_items lim d its fields parent x r y : ev_items (ev_expr inc lim d) its fields parent x = Some (r, y) -> goes x y.
Proof. apply (keeps_all_items inc lim goes goes_refl goes_trans goes_fresh goes_sent goes_def goes_inc). Qed.

(** ** Without includes *)
Definition nofile : inc_ty -> str -> ES value := fun _ _ => efail.
(** Without includes, what includes mean does not matter. *)
Lemma plain_inc inc inc' lim :
  (forall a, plain_atom a = true -> forall d fields x, ev_atom inc lim d fields a x = ev_atom inc' lim d fields a x) /\
  (forall e, plain e = true -> forall d fields x, ev_expr inc lim d fields e x = ev_expr inc' lim d fields e x).
Proof.
  assert (LS : forall es d fields x,
    Forall (fun e => plain e = true -> forall d fields x, ev_expr inc lim d fields e x = ev_expr inc' lim d fields e x) es ->
    forallb plain es = true -> emap (ev_expr inc lim d fields) es x = emap (ev_expr inc' lim d fields) es x).
  { intros es d fields x IH F. rewrite forallb_forall in F. apply PropOps.emap_same. rewrite Forall_forall in *. intros e He y. apply IH; auto. }
  apply ast_ind; try reflexivity.
  - intros g n sub IH P d fields x. rewrite !ev_dot. cbn [plain_atom] in P. unfold ebind. destruct (ev_name fields g n x) as [[v y]|]; auto.
    destruct v as [|b1|a|a|a|a|t1|o1]; auto; try (rewrite IH by exact P; reflexivity).
    destruct sub as [| |[] ?|[] ? ?| | | | |]; auto.
  - intros op a IH P d fields x. rewrite !ev_un. unfold ebind. rewrite IH; auto.
  - intros es IH P d fields x. rewrite !ev_arr. unfold deep. destruct (lim (d + 1)); auto. unfold ebind. rewrite LS; auto.
  - intros es IH P d fields x. rewrite !ev_tup. unfold deep. destruct (lim (d + 1)); auto. unfold ebind. rewrite LS; auto.
  - intros its IH P d fields x. rewrite !ev_obj. unfold deep. destruct (lim (d + 1)); auto.
    unfold ebind. rewrite (PropOps.items_same _ (ev_expr inc' lim (d + 1))); auto. cbn [plain_atom] in P. rewrite forallb_forall in P.
    rewrite Forall_forall in *. intros [f e] Hp fields' y. apply (IH _ Hp). apply (P _ Hp).
  - intros e p IH IH2 P. discriminate.
  - intros a l IHa IHl P d fields x. rewrite !ev_expr_Ex. cbn [plain] in P. apply andb_true_iff in P as [Pa Pl]. unfold ebind.
    rewrite IHa by exact Pa. destruct (ev_atom inc' lim d fields a x) as [[v y]|]; auto.
    rewrite (PropOps.emap_same _ (fun x0 => match x0 with (op, b) => fun st => match ev_atom inc' lim d fields b st with Some (w, st') => eret (op, w) st' | None => None end end)); auto.
    rewrite forallb_forall in Pl. rewrite Forall_forall in *. intros [op b] Hb z. rewrite (IHl (op, b) Hb); auto. apply (Pl _ Hb).
Qed.
Lemma plain_items_inc inc inc' lim d its : item_plain its = true -> forall fields par x,
  ev_items (ev_expr inc lim d) its fields par x = ev_items (ev_expr inc' lim d) its fields par x.
Proof.
  intros P. apply PropOps.items_same. unfold item_plain in P. rewrite forallb_forall in P. apply Forall_forall. intros p Hp fields x.
  apply (proj2 (plain_inc inc inc' lim)). apply (P _ Hp).
Qed.
(** ... and no file is loaded. *)
Definition still (x y : est) : Prop := sh_vals (snd y) = sh_vals (snd x) /\ sh_open (snd y) = sh_open (snd x).
Lemma still_expr lim d fields e x v y : plain e = true -> ev_expr inc lim d fields e x = Some (v, y) -> still x y.
Proof.
  intros P. rewrite (proj2 (plain_inc inc nofile lim) e P). apply (proj2 (keeps_ev nofile lim still ltac:(split; reflexivity)
    ltac:(intros a b c [A1 A2] [B1 B2]; split; congruence)
    ltac:(intros [gl sh] i z E; injection E as <- <-; split; reflexivity)
    ltac:(intros a k o b E; rewrite esentinel_force in E; injection E as <- <-; split; reflexivity)
    ltac:(intros a b f w _ [A1 A2]; split; auto) ltac:(intros k p a w b E; discriminate))).
Qed.
End Same.
