(** * EditEval: what an edit of a document can reach: evaluation. *)
From Verif Require Export Edits AfreshProofs.
From Coq Require String.
Import String.StringSyntax.
Open Scope N_scope.

Lemma others_more T T' ps : (forall n, In n T -> In n T') -> others T' (others T ps) = others T' ps.
Proof.
  intros H. induction ps as [|[f v] ps IH]; [reflexivity|]. unfold others in *. cbn [filter fst].
  destruct (mem_str f T) eqn:E; cbn [negb].
  - apply mem_str_iff in E. assert (X : mem_str f T' = true) by (apply mem_str_iff; auto). rewrite X. exact IH.
  - cbn [filter fst]. rewrite IH. reflexivity.
Qed.
Lemma others_app T ps qs : others T (ps ++ qs) = others T ps ++ others T qs.
Proof. apply filter_app. Qed.
Lemma assoc_others T ps n : ~ In n T -> assoc n (others T ps) = assoc n ps.
Proof.
  intros H. induction ps as [|[f v] ps IH]; [reflexivity|]. unfold others in *. cbn [filter fst assoc].
  destruct (mem_str f T) eqn:E; cbn [negb].
  - apply mem_str_iff in E. destruct (str_eqb_spec f n) as [->|]; [contradiction|exact IH].
  - cbn [assoc]. rewrite IH. reflexivity.
Qed.
Lemma others_names T ps qs : map fst ps = map fst qs -> map fst (others T ps) = map fst (others T qs).
Proof.
  revert qs. induction ps as [|[f v] ps IH]; intros [|[g w] qs] E; try discriminate; [reflexivity|]. cbn in E. injection E as -> E.
  unfold others in *. cbn [filter fst]. destruct (negb _); cbn [map fst]; [f_equal|]; auto.
Qed.
Lemma others_corr W T T' ps qs : (forall n, In n T -> In n T') -> corr_pairs 0 0 W (others T ps) (others T qs) -> corr_pairs 0 0 W (others T' ps) (others T' qs).
Proof.
  intros H C. rewrite <- (others_more T T' ps H), <- (others_more T T' qs H). revert C. generalize (others T ps) (others T qs). clear.
  intros ps qs C. induction C as [|[f v] [g w] ps qs [E C] F IH]; [constructor|]. cbn in E. subst g. unfold others. cbn [filter fst].
  destruct (negb _); [constructor; [split; auto|exact IH]|exact IH].
Qed.

Section E.
Context `{U : Unicode}.
Variable inc : inc_ty -> str -> ES value.
Hypothesis Pure : serves nothing inc inc.
Hypothesis Keep : forall k p x v y, inc k p x = Some (v, y) -> fst y = fst x.
Notation ev e fields := (ev_expr inc limit64 1 fields e).
Notation T0 := (fun (_ : wd) (_ _ : shared) => True).

(** the process moves on *)
Definition on (x y : est) : Prop := g_ok (sh_g (snd x)) -> pastw anysh x y.
Lemma on_refl x : on x x. Proof. intros G. apply past_self; auto. Qed.
Lemma on_trans x y z : on x y -> on y z -> on x z.
Proof.
  intros H1 H2 G. destruct (H1 G) as (A1 & D1 & _). destruct (H2 (proj1 (proj2 D1))) as (A2 & D2 & _).
  split; [auto|]. split; [eapply desc_trans; eauto|exact I].
Qed.
Lemma on_fresh x i y : fresh x = Some (i, y) -> on x y.
Proof. destruct x as [gl sh]. intros E. injection E as <- <-. intros G. split; [auto|]. split; [apply desc_bump, desc_refl; exact G|exact I]. Qed.
Lemma on_sent x k o y : esentinel k x = Some (o, y) -> on x y.
Proof. rewrite esentinel_force. intros E. injection E as <- <-. intros G. split; [auto|]. split; [apply force_desc, desc_refl; exact G|exact I]. Qed.
Lemma on_def x y f v : assoc f (fst x) = None -> on x y -> on x ((f, v) :: fst y, snd y).
Proof.
  intros A H G. destruct (H G) as (K & D & W1). split; [|auto].
  intros n w E. cbn [fst assoc]. destruct (str_eqb_spec f n) as [<-|]; [congruence|auto].
Qed.
Lemma on_inc k p x v y : inc k p x = Some (v, y) -> on x y.
Proof.
  intros E G. split; [rewrite (Keep _ _ _ _ _ E); auto|]. destruct x as [gl h].
  destruct (Pure [] gl gl h h k p v y (ids_nil _ _ G G) I E) as (_ & v' & h1 & W & _ & _ & _ & _ & _ & D & _). split; [exact D|exact I].
Qed.
Lemma on_expr d fields e x v y : ev_expr inc limit64 d fields e x = Some (v, y) -> on x y.
Proof. apply (proj2 (keeps_ev inc limit64 on on_refl on_trans on_fresh on_sent on_def on_inc)). Qed.

(** ** One expression, in two states that agree but for [T] *)
Definition out (T : list str) (n : str) : Prop := ~ In n T.
Definition globals_agree (T : list str) (W : wd) (gl gl' : list (str * value)) : Prop :=
  finds 0 W (out T) gl gl' /\ free (out T) gl gl'.
Lemma untouched T W e fields fields' x x' v y v' y' : uses_any T e = false ->
  corr_pairs 0 0 W (others T fields) (others T fields') -> globals_agree T W (fst x) (fst x') -> ids 0 W (sh_g (snd x)) (sh_g (snd x')) ->
  ev e fields x = Some (v, y) -> ev e fields' x' = Some (v', y') ->
  exists W', incl W W' /\ co W' v v' /\ globals_agree T W' (fst y) (fst y') /\ ids 0 W' (sh_g (snd y)) (sh_g (snd y')).
Proof.
  intros Un C [F1 F2] G E E'.
  assert (N : forall n, In n (reads e) \/ In n (defines e) -> out T n).
  { intros n H X. apply Bool.not_true_iff_false in Un. apply Un. unfold uses_any. apply existsb_exists. exists n. split; [apply in_or_app; exact H|]. apply mem_str_iff. exact X. }
  destruct (gen_expr inc inc limit64 eq ltac:(intros; congruence) ltac:(intros; congruence) (out T) (out T) 0 True T0 (fun _ _ _ _ _ H => H) (fun _ _ _ _ _ _ _ H => H) anysh (fun _ _ H => H) x x' []
     ) with (e := e) (W := W) (d := 1) (d' := 1) (fields := fields) (fields' := fields') (x := x) (y := x') (a := v) (x' := y)
     as (v1 & y1 & W' & E1 & Ic & Cv & (I1 & I2 & _ & _ & [I5 _] & _)); auto.
  - intros W1 k p _ [gl h] [gl' h'] w z (A1 & A2 & (A3 & P1 & P2) & (A4 & P3 & P4) & [Gi _] & _) Ei. cbn [fst snd] in *.
    destruct (Pure W1 gl gl' h h' k p w z Gi I Ei) as (Eg & w' & h1 & W2 & E2 & Ic & Cw & G2 & _ & D1 & D2).
    exists w', (gl', h1), W2. split; [exact E2|]. split; [exact Ic|]. split; [exact Cw|]. destruct z as [gx hx]. cbn [fst snd] in *. subst gx.
    split; [exact (finds_mono 0 _ _ _ _ _ Ic A1)|]. split; [exact A2|]. split; [split; [exact A3|split; [eapply desc_trans; eauto|exact I]]|].
    split; [split; [exact A4|split; [eapply desc_trans; eauto|exact I]]|]. split; [split; auto|]. intros q [].
  - intros n w Hn A. assert (On : ~ In n T) by (apply N; left; exact Hn). rewrite <- (assoc_others T _ _ On) in A. destruct (finds_pairs 0 W (fun _ => True) _ _ C n w I A) as (w' & A' & K).
    exists w'. split; [|exact K]. rewrite (assoc_others T _ _ On) in A'. exact A'.
  - split; [exact F1|]. split; [exact F2|]. split; [apply past_self; [apply G|exact I]|]. split; [apply past_self; [apply G|exact I]|]. split; [split; auto|]. intros q [].
  - rewrite E' in E1. injection E1 as <- <-. exists W'. split; [exact Ic|]. split; [exact Cv|]. split; [split; [exact I1|exact I2]|exact I5].
Qed.
(** what one state does on its own, the other not *)
Lemma frame_out T gl : forall W gl', globals_agree T W gl gl' -> forall T' gl1 gl1', (forall n, In n T -> In n T') ->
  (forall n, ~ In n T' -> assoc n gl1 = assoc n gl) -> (forall n, ~ In n T' -> assoc n gl1' = assoc n gl') -> globals_agree T' W gl1 gl1'.
Proof.
  intros W gl' [F1 F2] T' gl1 gl1' H A A'. split.
  - intros n v Hn E. rewrite A in E by exact Hn. destruct (F1 n v (fun X => Hn (H n X)) E) as (w & B & C). exists w. split; [|exact C]. rewrite A' by exact Hn. exact B.
  - intros n Hn E. rewrite A in E by exact Hn. rewrite A' by exact Hn. exact (F2 n (fun X => Hn (H n X)) E).
Qed.
Lemma frame_expr_out d fields e x v y : ev_expr inc limit64 d fields e x = Some (v, y) -> forall n, ~ In n (defines e) -> assoc n (fst y) = assoc n (fst x).
Proof. intros E. exact (proj2 (fr_ev inc limit64 Keep (fun n => In n (defines e))) e (fun n X => X) d fields _ _ _ E). Qed.

(** ** Items *)
Definition state : Type := (list pair_t * option obj) * est.
Definition agrees (T : list str) (W : wd) (s s' : state) : Prop :=
  corr_pairs 0 0 W (others T (fst (fst s))) (others T (fst (fst s'))) /\ (~ In (lit "^") T -> co_opt 0 W (snd (fst s)) (snd (fst s'))) /\
  globals_agree T W (fst (snd s)) (fst (snd s')) /\ ids 0 W (sh_g (snd (snd s))) (sh_g (snd (snd s'))).
(** an item on its own *)
Definition item (h : str) (e : expr) (s s' : state) : Prop :=
  exists v y, ev e (fst (fst s)) (snd s) = Some (v, y) /\
  match kind_of_item h with
  | KGlobal => assoc h (fst (snd s)) = None /\ s' = (fst s, ((h, v) :: fst y, snd y))
  | KParent => snd (fst s) = None /\ exists o, v = VObj o /\ s' = ((fst (fst s), Some o), y)
  | KField => ~ In h (map fst (fst (fst s))) /\ s' = ((fst (fst s) ++ [(h, v)], snd (fst s)), y)
  | _ => False
  end.
Lemma items_cons h e its r x r' x' : ev_items (ev_expr inc limit64 1) ((h, e) :: its) (fst r) (snd r) x = Some (r', x') ->
  exists s, item h e (r, x) s /\ ev_items (ev_expr inc limit64 1) its (fst (fst s)) (snd (fst s)) (snd s) = Some (r', x').
Proof.
  destruct r as [fl par]. cbn [fst snd]. rewrite ev_items_cons. unfold item. cbn [fst snd]. destruct (kind_of_item h) eqn:K; [| | |discriminate].
  - unfold ebind at 1, eglobals. destruct (assoc h (fst x)) eqn:A; [discriminate|]. intros E. apply ebind_some in E as (v & y & E & E').
    unfold ebind, edefine in E'. exists ((fl, par), ((h, v) :: fst y, snd y)). split; [exists v, y; auto|exact E'].
  - destruct par; [discriminate|]. intros E. apply ebind_some in E as (v & y & E & E'). destruct v; try discriminate.
    exists ((fl, Some o), y). split; [|exact E']. exists (VObj o), y. split; [exact E|]. split; eauto.
  - destruct (mem_str h (map fst fl)) eqn:M; [discriminate|]. intros E. apply ebind_some in E as (v & y & E & E').
    exists ((fl ++ [(h, v)], par), y). split; [|exact E']. exists v, y. split; [exact E|]. split; [|reflexivity]. intros X. apply mem_str_iff in X. congruence.
Qed.
Lemma parent_name f : kind_of_item f = KParent -> f = lit "^".
Proof.
  intros H. destruct f as [|c f]; [discriminate H|]. destruct (N.eq_dec c 64) as [->|N1]; [discriminate H|].
  destruct (N.eq_dec c 94) as [->|N2]; [destruct f; [reflexivity|discriminate H]|].
  rewrite kind_letter in H by auto. destruct (mem_str _ _); discriminate.
Qed.
(** an item reached from outside *)
Lemma own_item h e s s' T : item h e s s' -> g_ok (sh_g (snd (snd s))) -> In h T -> (forall n, In n (defines e) -> In n T) ->
  others T (fst (fst s')) = others T (fst (fst s)) /\ (~ In (lit "^") T -> snd (fst s') = snd (fst s)) /\
  (forall n, ~ In n T -> assoc n (fst (snd s')) = assoc n (fst (snd s))) /\ g_desc (sh_g (snd (snd s))) (sh_g (snd (snd s'))).
Proof.
  intros (v & y & E & K) G Hh Hd. destruct (on_expr _ _ _ _ _ _ E G) as (_ & D & _). pose proof (frame_expr_out _ _ _ _ _ _ E) as Fr.
  assert (Fr' : forall n, ~ In n T -> assoc n (fst y) = assoc n (fst (snd s))) by (intros n Hn; apply Fr; auto).
  destruct (kind_of_item h) eqn:Kh; [| | |contradiction].
  - destruct K as [_ ->]. cbn [fst snd]. split; [reflexivity|]. split; [auto|]. split; [|exact D].
    intros n Hn. cbn [assoc]. destruct (str_eqb_spec h n) as [->|]; [contradiction|auto].
  - destruct K as (_ & o & _ & ->). cbn [fst snd]. split; [reflexivity|]. split; [|split; [exact Fr'|exact D]].
    intros X. apply parent_name in Kh. subst h. contradiction.
  - destruct K as [_ ->]. cbn [fst snd]. split; [|split; [auto|split; [exact Fr'|exact D]]].
    rewrite others_app. unfold others at 2. cbn [filter fst]. apply mem_str_iff in Hh. rewrite Hh. apply app_nil_r.
Qed.
Lemma own_step h e s s1 s' T T' W : agrees T W s s' -> item h e s s1 -> (forall n, In n (h :: defines e ++ T) -> In n T') -> agrees T' W s1 s'.
Proof.
  intros (A1 & A2 & A3 & A4) It H.
  assert (H' : forall n, In n T -> In n T') by (intros; apply H; right; apply in_or_app; auto).
  destruct (own_item h e s s1 T' It) as (B1 & B2 & B3 & B4); [apply A4|apply H; left; reflexivity|intros; apply H; right; apply in_or_app; auto|].
  split; [|split; [|split]].
  - rewrite B1. apply (others_corr W T); auto.
  - intros X. rewrite B2 by exact X. apply A2. auto.
  - eapply frame_out; [exact A3|exact H'|exact B3|reflexivity].
  - eapply ids_later; [exact A4|exact B4|]. apply desc_refl. apply A4.
Qed.
Lemma own_step' h e s s1 s' T T' W : agrees T W s' s -> item h e s s1 -> (forall n, In n (h :: defines e ++ T) -> In n T') -> agrees T' W s' s1.
Proof.
  intros (A1 & A2 & A3 & A4) It H.
  assert (H' : forall n, In n T -> In n T') by (intros; apply H; right; apply in_or_app; auto).
  destruct (own_item h e s s1 T' It) as (B1 & B2 & B3 & B4); [apply A4|apply H; left; reflexivity|intros; apply H; right; apply in_or_app; auto|].
  split; [|split; [|split]].
  - rewrite B1. apply (others_corr W T); auto.
  - intros X. rewrite B2 by exact X. apply A2. auto.
  - eapply frame_out; [exact A3|exact H'|reflexivity|exact B3].
  - eapply ids_later; [exact A4| |exact B4]. apply desc_refl. apply A4.
Qed.
Lemma kept_step h e s s' s1 s1' T W : agrees T W s s' -> uses_any T e = false -> item h e s s1 -> item h e s' s1' -> exists W', incl W W' /\ agrees T W' s1 s1'.
Proof.
  intros (A1 & A2 & A3 & A4) Un (v & y & E & K) (v' & y' & E' & K').
  destruct (untouched T W e _ _ _ _ _ _ _ _ Un A1 A3 A4 E E') as (W' & Ic & C & G & Id). exists W'. split; [exact Ic|].
  pose proof (History.corr_pairs_mono _ _ _ _ _ _ Ic A1) as A1'.
  assert (A2' : ~ In (lit "^") T -> co_opt 0 W' (snd (fst s)) (snd (fst s'))) by (intros X; eapply co_opt_mono; eauto).
  destruct (kind_of_item h) eqn:Kh; [| | |contradiction].
  - destruct K as [_ ->], K' as [_ ->]. split; [exact A1'|]. split; [exact A2'|]. split; [|exact Id]. cbn [fst snd]. destruct G as [G1 G2]. split.
    + intros n w Hn A. cbn [assoc] in *. destruct (str_eqb h n); [injection A as <-; eauto|auto].
    + intros n Hn A. cbn [assoc] in *. destruct (str_eqb h n); [discriminate|auto].
  - destruct K as (_ & o & -> & ->), K' as (_ & o' & -> & ->). split; [exact A1'|]. split; [|split; [exact G|exact Id]].
    intros _. cbn [fst snd co_opt]. inversion C; subst. assumption.
  - destruct K as [_ ->], K' as [_ ->]. split; [|split; [exact A2'|split; [exact G|exact Id]]]. cbn [fst snd]. rewrite !others_app. apply Forall2_app; [exact A1'|].
    unfold others. cbn [filter fst]. destruct (negb _); constructor; [split; auto|constructor].
Qed.
Lemma reach l : forall T W s s' z z', agrees T W s s' ->
  ev_items (ev_expr inc limit64 1) (before l) (fst (fst s)) (snd (fst s)) (snd s) = Some z ->
  ev_items (ev_expr inc limit64 1) (after l) (fst (fst s')) (snd (fst s')) (snd s') = Some z' ->
  exists W', incl W W' /\ agrees (reached T l) W' z z'.
Proof.
  induction l as [|d l IH]; intros T W s s' z z' A E E'.
  { cbn in E, E'. injection E as <-. injection E' as <-. exists W. split; [apply incl_refl|]. destruct s as [[] ], s' as [[] ]. exact A. }
  destruct z as [r z], z' as [r' z'], s as [sr sx], s' as [sr' sx'].
  destruct d as [f e|f e e'|f e|f e]; cbn [reached].
  - apply items_cons in E as (s1 & It & E). apply items_cons in E' as (s1' & It' & E').
    destruct (uses_any T e) eqn:Un.
    + eapply IH; [|exact E|exact E']. eapply own_step'; [eapply own_step; [exact A|exact It|]|exact It'|].
      * intros n X. exact X.
      * intros n [<-|X]; [left; reflexivity|]. apply in_app_or in X as [X|X]; [right; apply in_or_app; auto|exact X].
    + destruct (kept_step _ _ _ _ _ _ _ _ A Un It It') as (W1 & I1 & A1). destruct (IH _ _ _ _ _ _ A1 E E') as (W2 & I2 & A2).
      exists W2. split; [eapply incl_tran; eauto|exact A2].
  - apply items_cons in E as (s1 & It & E). apply items_cons in E' as (s1' & It' & E').
    eapply IH; [|exact E|exact E']. eapply own_step'; [eapply own_step; [exact A|exact It|]|exact It'|].
    + intros n X. exact X.
    + intros n X. cbn [In] in *. rewrite !in_app_iff in *. cbn [In] in *. rewrite ?in_app_iff in *. tauto.
  - apply items_cons in E as (s1 & It & E). eapply IH; [|exact E|exact E']. eapply own_step; [exact A|exact It|auto].
  - apply items_cons in E' as (s1' & It' & E'). eapply IH; [|exact E|exact E']. eapply own_step'; [exact A|exact It'|auto].
Qed.
Lemma reach_doc l h h' o x o' x' : g_ok (sh_g h) -> g_ok (sh_g h') ->
  ev_doc inc limit64 (before l) ([], h) = Some (o, x) -> ev_doc inc limit64 (after l) ([], h') = Some (o', x') -> same_but (reached [] l) o o'.
Proof.
  intros G G' E E'. unfold ev_doc in E, E'. apply ebind_some in E as (r & y & E & F). apply ebind_some in E' as (r' & y' & E' & F').
  destruct (reach l [] [] (([], None), ([], h)) (([], None), ([], h')) (r, y) (r', y')) as (W & _ & (A1 & A2 & _)); [|exact E|exact E'|].
  { split; [constructor|]. split; [intros _; exact I|]. split; [split; [intros n v _ X; discriminate|intros n _ X; exact X]|apply ids_nil; auto]. }
  apply ebind_some in F as (i & ? & _ & F). injection F as <- _. apply ebind_some in F' as (j & ? & _ & F'). injection F' as <- _.
  cbn [fst snd] in A1, A2. split; cbn [obj_pairs obj_parent].
  - clear - A1. induction A1 as [|[f v] [g w] ps qs [Ef C] _ IH]; [reflexivity|]. cbn in Ef. subst g. cbn in C. apply History.corr_erase in C.
    cbn [erase_pairs map]. unfold erase_pairs in IH. rewrite IH, C. reflexivity.
  - intros X. specialize (A2 X). destruct (snd r) as [p|], (snd r') as [q|]; cbn in A2 |- *; try contradiction; [|reflexivity].
    assert (H : co W (VObj p) (VObj q)) by (constructor; exact A2). apply History.corr_erase in H. cbn [erase] in H. injection H as H. rewrite H. reflexivity.
Qed.
End E.
