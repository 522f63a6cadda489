(** * PropDrop: C65, dropping needs as much stack as the data is deep. *)
From Verif Require Import Complete LangSpec PropLoad PropScope PropLang PropLit PropComplete PropNames PropOps Prefix PropStep Roundtrip.
From Verif Require Import EvalProofs Share PropHistory PropRuntime PropShare PropRound Drop.
From Coq Require Import Permutation.
From Coq Require String.
Import String.StringSyntax.
Open Scope N_scope.

(** ** The recursive drop and the single steps of Runtime.v *)
Inductive drops : rt -> rt -> Prop :=
| dr_refl s : drops s s
| dr_step s s1 s' : rt_drop_step s s1 -> drops s1 s' -> drops s s'.
Lemma drops_trans s s1 s' : drops s s1 -> drops s1 s' -> drops s s'.
Proof. induction 1; eauto using drops. Qed.
Lemma drop_steps n : forall h vars a rest c h', drop_within n h a = Some h' ->
  drops (mkrt h vars (a :: rest) c) (mkrt h' vars rest c).
Proof.
  induction n as [|n IH]; intros h vars a rest c h' E; [discriminate|]. cbn [drop_within] in E.
  destruct (hfind h a) as [i|] eqn:F; [|discriminate]. destruct (N.eqb_spec (in_strong i) 1) as [S|S].
  - eapply dr_step; [apply (ds_free (mkrt h vars (a :: rest) c) a i rest); auto; reflexivity|]. cbn [rt_heap rt_vars rt_created].
    clear F S. revert E. generalize (hremove h a). induction (in_kids i) as [|b l L]; intros h1 E; cbn [each_within app] in *.
    + inversion E; subst. constructor.
    + destruct (drop_within n h1 b) as [h2|] eqn:E2; [|discriminate]. eapply drops_trans; [apply IH; exact E2|]. apply L. exact E.
  - inversion E; subst. eapply dr_step; [apply (ds_dec (mkrt h vars (a :: rest) c) a i rest); auto; reflexivity|]. constructor.
Qed.
Lemma drop_step_step s s' : rt_drop_step s s' -> rt_step s s'.
Proof. destruct 1; [eapply st_dec|eapply st_free]; eauto. Qed.
Lemma drops_ok s s' : drops s s' -> rt_ok s -> rt_ok s'.
Proof. induction 1; auto. intros K. apply IHdrops. eapply rt_step_ok; [exact K|]. apply drop_step_step. exact H. Qed.
Lemma drops_reach s s' : drops s s' -> rt_reach s -> rt_reach s'.
Proof. induction 1; auto. intros K. apply IHdrops. eapply rr_step; [exact K|]. apply drop_step_step. exact H. Qed.

(** Dropping only removes instances and lowers counts. *)
Definition sub (h' h : list (addr * inst)) : Prop := forall x i', hfind h' x = Some i' ->
  exists i, hfind h x = Some i /\ in_kids i = in_kids i' /\ in_strong i' <= in_strong i.
Lemma sub_refl h : sub h h. Proof. intros x i E. exists i. split; [exact E|]. split; [reflexivity|lia]. Qed.
Lemma sub_trans h1 h2 h3 : sub h1 h2 -> sub h2 h3 -> sub h1 h3.
Proof.
  intros A B x i E. apply A in E as (j & E & K & S). apply B in E as (k & E & K' & S'). exists k. split; [exact E|].
  split; [congruence|lia].
Qed.
Lemma drops_sub s s' : drops s s' -> rt_ok s -> sub (rt_heap s') (rt_heap s).
Proof.
  induction 1 as [s|s s1 s' St D IH]; intros K; [apply sub_refl|].
  eapply sub_trans; [apply IH; eapply rt_step_ok; [exact K|apply drop_step_step; exact St]|]. clear IH D.
  destruct St as [s a i rest P F N|s a i rest P F N]; cbn [rt_heap]; intros x i' E.
  - rewrite find_set in E. destruct (hfind (rt_heap s) x) as [j|] eqn:F'; [|discriminate]. exists j. split; [reflexivity|].
    inversion E; subst. destruct (N.eqb_spec x a); [subst x|split; [reflexivity|lia]]. cbn. split; [reflexivity|].
    rewrite F in F'. inversion F'; subst. lia.
  - rewrite find_remove in E by apply K. destruct (x =? a); [discriminate|]. exists i'. split; [exact E|]. split; [reflexivity|lia].
Qed.
Lemma dropping_there s a : rt_ok s -> In a (rt_drop s) -> exists i, hfind (rt_heap s) a = Some i.
Proof.
  intros K I. apply occ_in in I. pose proof (rk_count _ K a) as C. destruct (hfind (rt_heap s) a); [eauto|lia].
Qed.
Lemma held_there s a i b : rt_ok s -> hfind (rt_heap s) a = Some i -> In b (in_kids i) -> exists j, hfind (rt_heap s) b = Some j.
Proof.
  intros K F I. apply occ_in in I. pose proof (rk_count _ K b) as C. apply find_in in F. apply (held_in b) in F. unfold handles in C.
  destruct (hfind (rt_heap s) b); [eauto|lia].
Qed.

(** ** How deep *)
(** There is a chain of [n] instances, each held by the one before, that begins with [a]. *)
Inductive nested (h : list (addr * inst)) : addr -> nat -> Prop :=
| nested_one a i : hfind h a = Some i -> nested h a 1
| nested_more a i b n : hfind h a = Some i -> In b (in_kids i) -> nested h b n -> nested h a (S n).
(** The same, and each instance of the chain has one handle only. *)
Inductive owned (h : list (addr * inst)) : addr -> nat -> Prop :=
| owned_one a i : hfind h a = Some i -> in_strong i = 1 -> owned h a 1
| owned_more a i b n : hfind h a = Some i -> in_strong i = 1 -> In b (in_kids i) -> owned h b n -> owned h a (S n).
Lemma nested_sub h' h a n : sub h' h -> nested h' a n -> nested h a n.
Proof.
  intros S. induction 1 as [a i F|a i b n F I N IH]; apply S in F as (j & F & K & _).
  - eapply nested_one; eauto.
  - eapply nested_more; eauto. rewrite K. exact I.
Qed.
Lemma owned_sub s h b n : rt_ok s -> sub (rt_heap s) h -> owned h b n -> (exists i, hfind (rt_heap s) b = Some i) -> owned (rt_heap s) b n.
Proof.
  intros K S O. induction O as [a i F N|a i b n F N I O IH]; intros [i' F'];
    pose proof (S _ _ F') as (j & Fj & Kj & Sj); rewrite F in Fj; inversion Fj; subst j;
    assert (N' : in_strong i' = 1) by (pose proof (rk_pos _ K _ _ F'); lia).
  - eapply owned_one; eauto.
  - eapply owned_more; eauto; [rewrite <- Kj; exact I|]. apply IH. eapply held_there; eauto. rewrite <- Kj. exact I.
Qed.

Lemma drop_enough n : forall h vars a rest c, rt_ok (mkrt h vars (a :: rest) c) -> (forall k, nested h a k -> (k <= n)%nat) ->
  exists h', drop_within n h a = Some h'.
Proof.
  induction n as [|n IH]; intros h vars a rest c K B.
  { destruct (dropping_there _ a K) as [i F]; [left; reflexivity|]. cbn in F. specialize (B 1%nat (nested_one _ _ _ F)). lia. }
  destruct (dropping_there _ a K) as [i F]; [left; reflexivity|]. cbn [rt_heap] in F. cbn [drop_within]. rewrite F.
  destruct (N.eqb_spec (in_strong i) 1) as [S|S]; [|eauto].
  assert (St : rt_step (mkrt h vars (a :: rest) c) (mkrt (hremove h a) vars (in_kids i ++ rest) c)).
  { apply (st_free (mkrt h vars (a :: rest) c) a i rest); auto. }
  pose proof (rt_step_ok _ _ K St) as K'.
  assert (Sb : sub (hremove h a) h).
  { apply (drops_sub (mkrt h vars (a :: rest) c) (mkrt (hremove h a) vars (in_kids i ++ rest) c)); auto.
    eapply dr_step; [|constructor]. apply (ds_free (mkrt h vars (a :: rest) c) a i rest); auto. }
  assert (B' : forall b, In b (in_kids i) -> forall k, nested (hremove h a) b k -> (k <= n)%nat).
  { intros b I k N. apply (nested_sub _ _ _ _ Sb) in N. specialize (B _ (nested_more _ _ _ _ _ F I N)). lia. }
  clear B Sb St K F S. revert K' B'. generalize (hremove h a). induction (in_kids i) as [|b l L]; intros h1 K B; cbn [each_within app] in *; [eauto|].
  destruct (IH h1 vars b (l ++ rest) c K) as [h2 E]; [apply B; left; reflexivity|]. rewrite E.
  pose proof (drop_steps n h1 vars b (l ++ rest) c h2 E) as D. apply L.
  - eapply drops_ok; eauto.
  - intros b' I k N. apply (B b'); [right; exact I|]. eapply nested_sub; [apply (drops_sub _ _ D K)|exact N].
Qed.
Lemma drop_needed n : forall h vars a rest c k, rt_ok (mkrt h vars (a :: rest) c) -> owned h a k -> drop_within n h a <> None -> (k <= n)%nat.
Proof.
  induction n as [|n IH]; intros h vars a rest c k K O E; [contradiction|]. cbn [drop_within] in E.
  destruct O as [a i F S|a i b k F S I O]; [lia|]. rewrite F, S in E. cbn [N.eqb Pos.eqb] in E.
  assert (Dr : drops (mkrt h vars (a :: rest) c) (mkrt (hremove h a) vars (in_kids i ++ rest) c)).
  { eapply dr_step; [|constructor]. apply (ds_free (mkrt h vars (a :: rest) c) a i rest); auto. }
  pose proof (drops_ok _ _ Dr K) as K'. pose proof (drops_sub _ _ Dr K) as Sb. cbn [rt_heap] in Sb.
  assert (O' : owned (hremove h a) b k).
  { apply (owned_sub (mkrt (hremove h a) vars (in_kids i ++ rest) c) h b k K' Sb O). apply (dropping_there _ b K'). cbn. apply in_or_app. auto. }
  enough (k <= n)%nat by lia.
  clear K Dr Sb F S O. revert K' I O' E. generalize (hremove h a). induction (in_kids i) as [|b1 l L]; intros h1 K I O E; [destruct I|].
  cbn [each_within app] in *. destruct (N.eq_dec b1 b) as [->|D].
  - eapply IH; [exact K|exact O|]. intros X. rewrite X in E. contradiction.
  - destruct I as [?|I]; [contradiction|]. destruct (drop_within n h1 b1) as [h2|] eqn:E2; [|contradiction].
    pose proof (drop_steps n h1 vars b1 (l ++ rest) c h2 E2) as Dr. pose proof (drops_ok _ _ Dr K) as K'. apply (L h2 K' I); [|exact E].
    apply (owned_sub _ h1 b k K' (drops_sub _ _ Dr K) O). apply (dropping_there _ b K'). cbn. apply in_or_app. auto.
Qed.
Lemma drop_more n : forall h a h', drop_within n h a = Some h' -> forall m, (n <= m)%nat -> drop_within m h a = Some h'.
Proof.
  induction n as [|n IH]; intros h a h' E m M; [discriminate|]. destruct m as [|m]; [lia|]. cbn [drop_within] in *.
  destruct (hfind h a) as [i|]; [|discriminate]. destruct (in_strong i =? 1); [|exact E].
  revert E. generalize (hremove h a). induction (in_kids i) as [|b l L]; intros h1 E; cbn [each_within] in *; [exact E|].
  destruct (drop_within n h1 b) as [h2|] eqn:E2; [|discriminate]. rewrite (IH _ _ _ E2) by lia. apply L. exact E.
Qed.
(** The program drops one of its variables. *)
Lemma begin_drop s a vars : rt_reach s -> Permutation (rt_vars s) (a :: vars) -> rt_reach (mkrt (rt_heap s) vars (a :: rt_drop s) (rt_created s)).
Proof. intros R P. eapply rr_step; [exact R|]. apply st_drop. exact P. Qed.

(** ** C65 *)
(** A drop with whatever stack leads to the state that the single steps of C38 lead to (so the counts are right, nothing
    dangles and nothing leaks), and it does not depend on the size of the stack which one. *)
Theorem C65_drop_is_right frames s a vars h' : rt_reach s -> Permutation (rt_vars s) (a :: vars) ->
  drop_within frames (rt_heap s) a = Some h' ->
  rt_reach (mkrt h' vars (rt_drop s) (rt_created s)) /\
  (forall more, (frames <= more)%nat -> drop_within more (rt_heap s) a = Some h').
Proof.
  intros R P E. split.
  - eapply drops_reach; [apply (drop_steps frames); exact E|]. apply begin_drop; auto.
  - intros more M. apply (drop_more frames); auto.
Qed.
(** As many frames as instances are nested suffice. *)
Theorem C65_enough frames s a : rt_reach s -> In a (rt_vars s) -> (forall n, nested (rt_heap s) a n -> (n <= frames)%nat) ->
  drop_within frames (rt_heap s) a <> None.
Proof.
  intros R I B E. apply in_split in I as (l & r & V).
  assert (P : Permutation (rt_vars s) (a :: l ++ r)) by (rewrite V; symmetry; apply Permutation_middle).
  destruct (drop_enough frames (rt_heap s) (l ++ r) a (rt_drop s) (rt_created s)) as [h' H]; [|exact B|congruence].
  apply reach_ok. apply begin_drop; auto.
Qed.
(** If each of them has no other handle, that many frames are needed. *)
Theorem C65_needed frames s a n : rt_reach s -> In a (rt_vars s) -> owned (rt_heap s) a n ->
  drop_within frames (rt_heap s) a <> None -> (n <= frames)%nat.
Proof.
  intros R I O E. apply in_split in I as (l & r & V).
  assert (P : Permutation (rt_vars s) (a :: l ++ r)) by (rewrite V; symmetry; apply Permutation_middle).
  apply (drop_needed frames (rt_heap s) (l ++ r) a (rt_drop s) (rt_created s) n); auto.
  apply reach_ok. apply begin_drop; auto.
Qed.

(** ** Loaded Objs *)
(** The containers among the values that [v] holds, by their ids, in the order in which they are dropped. *)
Definition ids (vs : list value) : list N := concat (map (fun w => match id_of w with Some i => [i] | None => [] end) vs).
Definition kids (v : value) : list N :=
  match v with
  | VArr a => ids (arr_values a)
  | VTup t => ids (tup_values t)
  | VObj o => ids (map snd (obj_pairs o)) ++ match obj_parent o with Some p => [obj_id p] | None => [] end
  | _ => []
  end.
(** The heap of [s] contains [o]: the instance with id [i] is at the address [m i]. *)
Record laid_out (s : rt) (m : N -> addr) (o : obj) : Prop := {
  lo_there : forall p i, part p (VObj o) -> id_of p = Some i ->
    exists x, hfind (rt_heap s) (m i) = Some x /\ in_kids x = map m (kids p);
  lo_apart : forall p q i j, part p (VObj o) -> id_of p = Some i -> part q (VObj o) -> id_of q = Some j -> m i = m j -> i = j
}.
Lemma ids_in vs j : In j (ids vs) -> exists w, In w vs /\ id_of w = Some j.
Proof.
  unfold ids. intros I. apply in_concat in I as (l & I & J). apply in_map_iff in I as (w & <- & I). exists w. split; [exact I|].
  destruct (id_of w); [destruct J as [->|[]]; reflexivity|destruct J].
Qed.
Lemma in_ids vs j w : In w vs -> id_of w = Some j -> In j (ids vs).
Proof. intros I E. unfold ids. apply in_concat. exists [j]. split; [|left; reflexivity]. apply in_map_iff. exists w. rewrite E. auto. Qed.
Lemma kids_held v j : In j (kids v) -> exists w, holds v w /\ id_of w = Some j.
Proof.
  destruct v as [| | | | |[i t vs]|[i t vs]|[i ps par]]; cbn [kids arr_values tup_values obj_pairs obj_parent]; try solve [intros []].
  - intros I. apply ids_in in I as (w & I & E). exists w. split; [constructor|]; auto.
  - intros I. apply ids_in in I as (w & I & E). exists w. split; [constructor|]; auto.
  - intros I. apply in_app_or in I as [I|I].
    + apply ids_in in I as (w & I & E). apply in_map_iff in I as ([f v] & <- & I). exists v. split; [eapply holds_field; eauto|exact E].
    + destruct par as [p|]; [|destruct I]. destruct I as [<-|[]]. exists (VObj p). split; [constructor|reflexivity].
Qed.
Lemma held_kids v w j : holds v w -> id_of w = Some j -> In j (kids v).
Proof.
  destruct 1; cbn [kids arr_values tup_values obj_pairs obj_parent]; intros E.
  - eapply in_ids; eauto.
  - eapply in_ids; eauto.
  - apply in_or_app. left. apply (in_map snd) in H. eapply in_ids; eauto.
  - apply in_or_app. right. cbn in *. left. congruence.
Qed.
Lemma holds_part v w : holds v w -> part w v.
Proof. destruct 1; [eapply part_arr|eapply part_tup|eapply part_field|apply part_parent]; eauto; constructor. Qed.
Lemma nested_depth s m o : laid_out s m o -> forall n a, nested (rt_heap s) a n -> forall p i, part p (VObj o) -> id_of p = Some i -> a = m i ->
  N.of_nat n <= depth p.
Proof.
  intros L n a Ne. induction Ne as [a x F|a x b n F I Ne IH]; intros p i Pp Ip ->.
  - assert (1 <= depth p); [|lia]. destruct p as [| | | | |[]|[]|[]]; try discriminate; cbn [depth depth_obj]; lia.
  - destruct (lo_there _ _ _ L p i Pp Ip) as (x' & F' & K). rewrite F in F'. inversion F'; subst x'. rewrite K in I.
    apply in_map_iff in I as (j & <- & I). apply kids_held in I as (w & W & J).
    specialize (IH w j (part_trans _ _ _ (holds_part _ _ W) Pp) J eq_refl). apply holds_depth in W. lia.
Qed.

Section P.
Context `{U : Unicode}.

(** A loaded Obj can be dropped with as many frames as it is deep; and if the handle that is dropped was the only one the
    program had, nothing remains. *)
Theorem C65_loaded frames s m o : rt_reach s -> laid_out s m o -> In (m (obj_id o)) (rt_vars s) -> depth_obj o <= N.of_nat frames ->
  exists h', drop_within frames (rt_heap s) (m (obj_id o)) = Some h' /\
    (rt_vars s = [m (obj_id o)] -> rt_drop s = [] -> h' = []).
Proof.
  intros R L V D. destruct (drop_within frames (rt_heap s) (m (obj_id o))) as [h'|] eqn:E.
  - exists h'. split; [reflexivity|]. intros V1 D1.
    assert (P : Permutation (rt_vars s) [m (obj_id o)]) by (rewrite V1; reflexivity).
    destruct (C65_drop_is_right _ _ _ _ _ R P E) as [R' _]. rewrite D1 in R'. apply (C38_no_leak _ R'); reflexivity.
  - exfalso. apply (C65_enough frames s (m (obj_id o)) R V); auto. intros n Ne.
    pose proof (nested_depth s m o L n _ Ne (VObj o) (obj_id o) (part_self _) eq_refl eq_refl). cbn [depth] in H. lia.
Qed.

(** *** Every loaded Obj can be in memory *)
Definition all_kept (H : heap) (v : value) : Prop := forall p i, part p v -> id_of p = Some i -> H i = p.
(** The instances of [P] (an initial part of those of a loaded Obj) are in memory, with one variable for each. *)
Record built (H : heap) (P : value -> Prop) (s : rt) : Prop := {
  bu_reach : rt_reach s;
  bu_drop : rt_drop s = [];
  bu_vars : Permutation (rt_vars s) (map fst (rt_heap s));
  bu_right : forall i x, hfind (rt_heap s) i = Some x -> P (H i) /\ id_of (H i) = Some i /\ in_kids x = kids (H i)
}.
Lemma clone_all l : forall s, rt_reach s -> (forall i, In i l -> In i (rt_vars s)) ->
  exists h, rt_reach (mkrt h (l ++ rt_vars s) (rt_drop s) (rt_created s)) /\ map fst h = map fst (rt_heap s) /\
    forall i, option_map in_kids (hfind h i) = option_map in_kids (hfind (rt_heap s) i).
Proof.
  induction l as [|a l IH]; intros s R V.
  - exists (rt_heap s). destruct s; cbn. auto.
  - destruct (IH s R) as (h & R' & F & K); [intros i I; apply V; right; exact I|].
    assert (Ia : In a (rt_vars s)) by (apply V; left; reflexivity).
    assert (X : exists i, hfind h a = Some i).
    { apply reach_ok in R'. pose proof (rk_count _ R' a) as C. cbn [rt_heap] in C. unfold handles in C. cbn [rt_vars rt_heap rt_drop] in C.
      apply occ_in in Ia. rewrite occ_app in C. destruct (hfind h a); [eauto|lia]. }
    destruct X as [i Fi]. exists (hset_strong h a (in_strong i + 1)). split; [|split].
    + eapply rr_step; [exact R'|]. apply (st_clone (mkrt h (l ++ rt_vars s) (rt_drop s) (rt_created s)) a i).
      * apply acc_var. cbn. apply in_or_app. auto.
      * exact Fi.
    + rewrite keys_set. exact F.
    + intros j. rewrite find_set, <- K. destruct (hfind h j); [|reflexivity]. destruct (j =? a); reflexivity.
Qed.
Lemma in_keys (h : list (addr * inst)) i : In i (map fst h) <-> exists x, hfind h i = Some x.
Proof.
  pose proof (PropRuntime.find_none h i) as F. destruct (hfind h i) as [x|].
  - split; [eauto|]. intros _. destruct (in_dec N.eq_dec i (map fst h)); [auto|]. apply F in n. discriminate.
  - split; [|intros [x E]; discriminate]. intros I. exfalso. apply (proj1 F eq_refl). exact I.
Qed.
Lemma build_one H (P : value -> Prop) s v i : built H P s -> P v -> H i = v -> id_of v = Some i -> (forall j, In j (kids v) -> exists x, hfind (rt_heap s) j = Some x) ->
  exists s', built H P s' /\ (exists x, hfind (rt_heap s') i = Some x) /\ forall j, (exists x, hfind (rt_heap s) j = Some x) -> exists x, hfind (rt_heap s') j = Some x.
Proof.
  intros B Pv Hi Iv K. destruct (hfind (rt_heap s) i) as [x|] eqn:F; [exists s; eauto|].
  destruct B as [R D V W].
  destruct (clone_all (kids v) s R) as (h & R' & Fk & Kk).
  { intros j J. apply (Permutation_in _ (Permutation_sym V)). apply in_keys. auto. }
  assert (F' : hfind h i = None). { specialize (Kk i). rewrite F in Kk. destruct (hfind h i); [discriminate|reflexivity]. }
  exists (mkrt ((i, mkinst (rt_created s) 1 (kids v)) :: h) (i :: rt_vars s) (rt_drop s) (S (rt_created s))). split; [|split].
  - constructor; cbn [rt_heap rt_vars rt_drop rt_created].
    + eapply rr_step; [exact R'|]. apply (st_new (mkrt h (kids v ++ rt_vars s) (rt_drop s) (rt_created s)) i (kids v) (rt_vars s)); auto.
    + exact D.
    + cbn [map fst]. apply perm_skip. rewrite Fk. exact V.
    + intros j x E. cbn [hfind] in E. destruct (N.eqb_spec j i) as [->|Dj].
      * inversion E; subst. cbn. auto.
      * specialize (Kk j). rewrite E in Kk. destruct (hfind (rt_heap s) j) as [y|] eqn:Fj; [|discriminate]. cbn in Kk. inversion Kk as [Q].
        apply W in Fj. rewrite Q. exact Fj.
  - cbn [rt_heap hfind]. rewrite N.eqb_refl. eauto.
  - intros j [x E]. cbn [rt_heap hfind]. destruct (j =? i); [eauto|]. specialize (Kk j). rewrite E in Kk. destruct (hfind h j); [eauto|discriminate].
Qed.
Definition has (s : rt) (v : value) : Prop := forall i, id_of v = Some i -> exists x, hfind (rt_heap s) i = Some x.
Lemma build_list H (P : value -> Prop) (vs : list value) :
  (forall v, In v vs -> forall s, built H P s -> exists s', built H P s' /\ (forall p, part p v -> has s' p) /\ (forall w, has s w -> has s' w)) ->
  forall s, built H P s -> exists s', built H P s' /\ (forall v p, In v vs -> part p v -> has s' p) /\ (forall w, has s w -> has s' w).
Proof.
  induction vs as [|v vs IH]; intros F s B; [exists s; split; [exact B|]; split; [intros ? ? []|auto]|].
  destruct (F v (or_introl eq_refl) s B) as (s1 & B1 & A1 & M1).
  destruct (IH (fun w I => F w (or_intror I)) s1 B1) as (s2 & B2 & A2 & M2).
  exists s2. split; [exact B2|]. split; [|auto]. intros w p [<-|I] Pp; [apply M2; auto|eauto].
Qed.

(** The values that a value holds, as a list. *)
Definition held_values (v : value) : list value :=
  match v with
  | VArr a => arr_values a
  | VTup t => tup_values t
  | VObj o => map snd (obj_pairs o) ++ match obj_parent o with Some p => [VObj p] | None => [] end
  | _ => []
  end.
Lemma held_values_spec v w : In w (held_values v) <-> holds v w.
Proof.
  split.
  - destruct v as [| | | | |[i t vs]|[i t vs]|[i ps par]]; cbn [held_values arr_values tup_values obj_pairs obj_parent]; try solve [intros []].
    + apply holds_arr.
    + apply holds_tup.
    + intros I. apply in_app_or in I as [I|I].
      * apply in_map_iff in I as ([f x] & <- & I). eapply holds_field; eauto.
      * destruct par as [p|]; [|destruct I]. destruct I as [<-|[]]. constructor.
  - destruct 1; cbn [held_values arr_values tup_values obj_pairs obj_parent]; auto.
    + apply in_or_app. left. apply (in_map snd) in H. exact H.
    + apply in_or_app. right. left. reflexivity.
Qed.
Lemma part_cases p v : part p v -> p = v \/ exists w, holds v w /\ part p w.
Proof.
  destruct 1; [auto|right..].
  - exists w. split; [constructor|]; auto.
  - exists w. split; [constructor|]; auto.
  - exists w. split; [eapply holds_field|]; eauto.
  - exists (VObj p0). split; [constructor|]; auto.
Qed.
Lemma build H (P : value -> Prop) n : forall v, depth v < N.of_nat n -> all_kept H v -> (forall p, part p v -> P p) -> forall s, built H P s ->
  exists s', built H P s' /\ (forall p, part p v -> has s' p) /\ (forall w, has s w -> has s' w).
Proof.
  induction n as [|n IH]; intros v D K Pv s B; [lia|].
  destruct (build_list H P (held_values v)) with (s := s) as (s1 & B1 & A1 & M1); [|exact B|].
  { intros w I s0 B0. apply held_values_spec in I. apply (IH w); auto.
    - apply holds_depth in I. lia.
    - intros p i Pp Ip. apply K; [|exact Ip]. eapply part_trans; [exact Pp|apply holds_part; exact I].
    - intros p Pp. apply Pv. eapply part_trans; [exact Pp|apply holds_part; exact I]. }
  destruct (id_of v) as [i|] eqn:Iv.
  - destruct (build_one H P s1 v i B1) as (s2 & B2 & A2 & M2); auto.
    + apply Pv. constructor.
    + apply K; auto. constructor.
    + intros j J. apply kids_held in J as (w & W & Iw). apply (A1 w w); [apply held_values_spec; exact W|constructor|exact Iw].
    + exists s2. split; [exact B2|]. split.
      * intros p Pp. apply part_cases in Pp as [->|(w & W & Pp)].
        -- intros j E. rewrite Iv in E. inversion E; subst. exact A2.
        -- intros j E. apply M2. apply (A1 w p); [apply held_values_spec; exact W|exact Pp|exact E].
      * intros w W j E. apply M2. exact (M1 w W j E).
  - exists s1. split; [exact B1|]. split; [|exact M1]. intros p Pp. apply part_cases in Pp as [->|(w & W & Pp)].
    + intros j E. congruence.
    + apply (A1 w p); [apply held_values_spec; exact W|exact Pp].
Qed.
(** The variables that are not needed are dropped again: each of their instances is held by another one. *)
Lemma drop_all l : forall s r, rt_reach s -> rt_drop s = [] -> Permutation (rt_vars s) (r :: l) ->
  (forall a, In a l -> exists b x, hfind (rt_heap s) b = Some x /\ In a (in_kids x)) ->
  exists h, rt_reach (mkrt h [r] [] (rt_created s)) /\ forall i, option_map in_kids (hfind h i) = option_map in_kids (hfind (rt_heap s) i).
Proof.
  induction l as [|a l IH]; intros s r R D V W.
  - exists (rt_heap s). split; [|auto]. destruct s as [h vars dr c]; cbn in *. subst dr.
    apply Permutation_sym, Permutation_length_1_inv in V. subst vars. exact R.
  - assert (P : Permutation (rt_vars s) (a :: r :: l)) by (rewrite V; apply perm_swap).
    pose proof (begin_drop s a (r :: l) R P) as R1. rewrite D in R1.
    assert (X : exists i, hfind (rt_heap s) a = Some i /\ in_strong i <> 1).
    { pose proof (reach_ok _ R1) as K. pose proof (rk_count _ K a) as C. cbn [rt_heap rt_drop] in C. rewrite occ_cons, N.eqb_refl in C.
      destruct (W a (or_introl eq_refl)) as (b & x & Fb & Ib). apply find_in in Fb. apply (held_in a) in Fb. apply occ_in in Ib.
      unfold handles in C. cbn [rt_heap rt_vars] in C. destruct (hfind (rt_heap s) a) as [i|]; [|lia]. exists i. split; [reflexivity|lia]. }
    destruct X as (i & F & S).
    set (s2 := mkrt (hset_strong (rt_heap s) a (in_strong i - 1)) (r :: l) [] (rt_created s)).
    assert (R2 : rt_reach s2).
    { eapply rr_step; [exact R1|]. apply (st_dec (mkrt (rt_heap s) (r :: l) [a] (rt_created s)) a i []); auto. }
    assert (Kk : forall j, option_map in_kids (hfind (rt_heap s2) j) = option_map in_kids (hfind (rt_heap s) j)).
    { intros j. unfold s2. cbn [rt_heap]. rewrite find_set. destruct (hfind (rt_heap s) j); [|reflexivity]. destruct (j =? a); reflexivity. }
    destruct (IH s2 r R2 eq_refl (Permutation_refl _)) as (h & Rh & Kh).
    { intros b Ib. destruct (W b (or_intror Ib)) as (c & x & Fc & Ic). specialize (Kk c). rewrite Fc in Kk.
      destruct (hfind (rt_heap s2) c) as [y|] eqn:E; [|discriminate]. exists c, y. split; [exact E|]. cbn in Kk. congruence. }
    exists h. split; [exact Rh|]. intros j. rewrite Kh. apply Kk.
Qed.
Lemma held_by_part p v : part p v -> p = v \/ exists q, part q v /\ holds q p.
Proof.
  intros Pp. induction Pp as [|id t vs w I Pp IH|id t vs w I Pp IH|id ps par f w I Pp IH|id ps p0 Pp IH]; [auto|right..].
  - destruct IH as [->|(q & Q & W)]; [exists (VArr (MkArr id t vs)); split; constructor; auto|]. exists q. split; [eapply part_arr; eauto|exact W].
  - destruct IH as [->|(q & Q & W)]; [exists (VTup (MkTup id t vs)); split; constructor; auto|]. exists q. split; [eapply part_tup; eauto|exact W].
  - destruct IH as [->|(q & Q & W)]; [exists (VObj (MkObj id ps par)); split; [constructor|eapply holds_field; eauto]|]. exists q. split; [eapply part_field; eauto|exact W].
  - destruct IH as [->|(q & Q & W)]; [exists (VObj (MkObj id ps (Some p0))); split; constructor|]. exists q. split; [eapply part_parent; eauto|exact W].
Qed.
(** For every loaded Obj there is a history after which the program has it in memory, and nothing else, and holds one
    handle to it. *)
Theorem C65_in_memory fs g o g' : process g -> loads_to fs g o g' ->
  exists s, rt_reach s /\ laid_out s (fun i => i) o /\ rt_vars s = [obj_id o] /\ rt_drop s = [].
Proof.
  intros P L. destruct (load_heap _ _ _ _ P L) as (H & K & _).
  assert (B0 : built H (fun p => part p (VObj o)) rt_init).
  { constructor; [constructor|reflexivity|reflexivity|intros i x E; discriminate]. }
  destruct (build H (fun p => part p (VObj o)) (S (N.to_nat (depth (VObj o)))) (VObj o)) with (s := rt_init) as (s & B & A & _); auto.
  { lia. } { intros p i Pp Ip. apply (K p i Pp Ip). }
  destruct B as [R D V W]. pose proof (reach_ok _ R) as Ok.
  destruct (A (VObj o) (part_self _) (obj_id o) eq_refl) as [xo Fo].
  assert (Io : In (obj_id o) (rt_vars s)). { apply (Permutation_in _ (Permutation_sym V)). apply in_keys. eauto. }
  apply in_split in Io as (l1 & l2 & Ev).
  assert (Pv : Permutation (rt_vars s) (obj_id o :: l1 ++ l2)) by (rewrite Ev; symmetry; apply Permutation_middle).
  assert (Nd : NoDup (obj_id o :: l1 ++ l2)).
  { eapply Permutation_NoDup; [|apply (rk_keys _ Ok)]. rewrite <- V. exact Pv. }
  destruct (drop_all (l1 ++ l2) s (obj_id o) R D Pv) as (h & Rh & Kh).
  { intros a Ia. assert (Ik : In a (map fst (rt_heap s))). { apply (Permutation_in _ V). apply (Permutation_in _ (Permutation_sym Pv)). right. exact Ia. }
    apply in_keys in Ik as [x Fx]. destruct (W _ _ Fx) as (Pa & Ida & _).
    apply held_by_part in Pa as [E|(q & Q & Hq)].
    - exfalso. rewrite E in Ida. inversion Ida; subst. inversion Nd; auto.
    - assert (Iq : exists j, id_of q = Some j) by (destruct Hq; eexists; reflexivity). destruct Iq as [j Ij].
      destruct (A q Q j Ij) as [y Fy]. exists j, y. split; [exact Fy|]. destruct (W _ _ Fy) as (_ & _ & Ky). rewrite Ky.
      destruct (K q j Q Ij) as [_ ->]. eapply held_kids; eauto. }
  exists (mkrt h [obj_id o] [] (rt_created s)). split; [exact Rh|]. split; [|split; reflexivity]. constructor; [|auto].
  intros p i Pp Ip. destruct (A p Pp i Ip) as [x Fx]. cbn [rt_heap]. specialize (Kh i). rewrite Fx in Kh.
  destruct (hfind h i) as [y|] eqn:E; [|discriminate]. exists y. split; [reflexivity|]. cbn in Kh. rewrite map_id.
  destruct (W _ _ Fx) as (_ & _ & Kx). destruct (K p i Pp Ip) as [_ Hi]. rewrite Hi in Kx. congruence.
Qed.

(** *** Overflow *)
(** @a: [] @aa: [@a] @aaa: [@aa] ... x: @aaa *)
Definition gnm (n : nat) : str := c_at :: nm n.
Fixpoint gtower (n : nat) : list (str * expr) :=
  match n with
  | O => [(gnm 0, Ex (AArr []) [])]
  | S m => gtower m ++ [(gnm (S m), Ex (AArr [Ex (AVar true (nm m)) []]) [])]
  end.
Definition chain_items (n : nat) : list (str * expr) := gtower n ++ [(lit "x", Ex (AVar true (nm n)) [])].
Lemma gnm_item n : item_name (gnm n).
Proof.
  exists 97, (repeat 97 n). split; [right; reflexivity|]. split; [left; left; reflexivity|].
  apply Forall_forall. intros c H. apply repeat_spec in H. subst. left. left. reflexivity.
Qed.
Lemma gvar n : var_name true (nm n).
Proof. pose proof (nm_lods n) as H. destruct (nm_var n) as (c & r & E & L & F). exists c, r. split; [exact E|]. split; [left; exact L|exact F]. Qed.
Lemma x_legal : legal_field (lit "x").
Proof.
  exists 120, []. split; [reflexivity|]. split; [left; reflexivity|]. split; [constructor|]. unfold reserved_words. cbn [In lit].
  intros H. repeat destruct H as [H|H]; try discriminate H. exact H.
Qed.
Lemma chain_text n : exists t, r_items (chain_items n) t.
Proof.
  assert (V : forall k, r_atom (AVar true (nm k)) (c_at :: nm k)).
  { intros k. change (c_at :: nm k) with ((if true then [c_at] else []) ++ nm k). apply r_var, gvar. }
  enough (H : forall its t, r_items its t -> t <> [] -> exists t, r_items (gtower n ++ its) t).
  { unfold chain_items. eapply (H _ (lit "x" ++ c_colon :: [] ++ (c_at :: nm n) ++ [] ++ [])); [|discriminate].
    apply r_icons; auto using legal_item, x_legal; [constructor| |constructor|constructor]. apply atom_expr. apply V. }
  induction n as [|n IH]; intros its t R N; cbn [gtower app].
  - exists (gnm 0 ++ c_colon :: [] ++ (c_lbrack :: [] ++ [] ++ [c_rbrack]) ++ [32] ++ t).
    apply r_icons; auto using gnm_item; [constructor| |repeat constructor|right; discriminate].
    apply atom_expr. apply r_arr; constructor.
  - rewrite <- app_assoc. cbn [app].
    assert (A : r_expr (Ex (AArr [Ex (AVar true (nm n)) []]) []) (c_lbrack :: [] ++ ((c_at :: nm n) ++ [] ++ []) ++ [c_rbrack])).
    { apply atom_expr. apply r_arr; [constructor|]. apply r_econs; try constructor; auto. apply atom_expr. apply V. }
    eapply (IH _ (gnm (S n) ++ c_colon :: [] ++ _ ++ [32] ++ t)); [|discriminate].
    eapply (r_icons _ _ _ [] _ [32] _); auto using gnm_item; [constructor|exact A|repeat constructor|right; discriminate].
Qed.
(** Nested containers of one element each. *)
Inductive tube : value -> nat -> Prop :=
| tube_end i t : tube (VArr (MkArr i t [])) 1
| tube_more i t v n : tube v n -> tube (VArr (MkArr i t [v])) (S n)
| tube_obj i f v n : tube v n -> tube (VObj (MkObj i [(f, v)] None)) (S n).
Lemma gnm_inj n m : gnm n = gnm m -> n = m.
Proof. intros E. inversion E as [E']. assert (E2 : nm n = nm m) by (unfold nm; cbn [repeat]; rewrite E'; reflexivity). apply nm_inj. exact E2. Qed.
Lemma chain_eval inc n : forall sh, exists gl y v,
  ev_items (ev_expr inc limit64 1) (gtower n) [] None ([], sh) = Some (([], None), (gl, y)) /\
  map fst gl = map gnm (rev (seq 0 (S n))) /\ assoc (gnm n) gl = Some v /\ tube v (S n).
Proof.
  induction n as [|n IH]; intros sh.
  - eexists _, _, _. split; [reflexivity|]. split; [reflexivity|]. split; [reflexivity|]. constructor.
  - destruct (IH sh) as (gl & y & v & E & F & A & T). cbn [gtower]. rewrite items_app. unfold ebind at 1. rewrite E.
    cbn [fst snd]. rewrite ev_items_cons. change (kind_of_item (gnm (S n))) with KGlobal. unfold ebind at 1, eglobals at 1. cbn [fst].
    assert (N : assoc (gnm (S n)) gl = None).
    { destruct (assoc (gnm (S n)) gl) as [w|] eqn:X; [|reflexivity]. exfalso. apply assoc_some in X as (l & r & -> & _).
      assert (I : In (gnm (S n)) (map gnm (rev (seq 0 (S n))))) by (rewrite <- F, map_app; apply in_or_app; right; left; reflexivity).
      apply in_map_iff in I as (k & K & I). apply gnm_inj in K. apply in_rev, in_seq in I. lia. }
    rewrite N. unfold ebind at 1. rewrite ev_atom_expr, ev_arr. change (deep limit64 (1 + 1) ?m) with m.
    unfold ebind at 1 2. cbn [emap]. unfold ebind at 1. rewrite ev_atom_expr. cbn [ev_atom]. unfold ev_name. unfold ebind at 1, eglobals at 1.
    cbn [fst]. fold (gnm n). rewrite A. cbn [elift]. unfold eret at 1. unfold ebind, eret. cbn [map]. unfold lub. cbn [fold_left].
    rewrite most_specific_any_l. cbn [fresh fst snd edefine]. eexists _, _, _. split; [reflexivity|].
    split; [cbn [map fst]; rewrite F, (seq_S (S n)), rev_app_distr; reflexivity|]. split.
    + cbn [assoc]. rewrite str_eqb_refl. reflexivity.
    + constructor. exact T.
Qed.

Lemma tube_depth v n : tube v n -> depth v = N.of_nat n.
Proof. induction 1; cbn [depth depth_obj map fold_right]; lia. Qed.
Lemma tube_holds v n w : tube v n -> holds v w -> exists k, tube w k /\ n = S k /\ forall i, id_of w = Some i -> kids v = [i].
Proof.
  intros T W. inversion W; subst; inversion T; subst.
  - destruct H.
  - destruct H as [<-|[]]. exists n0. split; [assumption|]. split; [reflexivity|]. intros i E. cbn. rewrite E. reflexivity.
  - destruct H as [E|[]]. inversion E; subst. exists n0. split; [assumption|]. split; [reflexivity|]. intros i E'. cbn. rewrite E'. reflexivity.
Qed.
Lemma tube_part v n q : tube v n -> part q v -> exists k, tube q k /\ (k <= n)%nat.
Proof.
  intros T. revert q. induction T; intros q P; apply part_cases in P as [->|(w & W & P)].
  - exists 1%nat. split; [constructor|lia].
  - inversion W; subst. destruct H3.
  - exists (S n). split; [constructor; exact T|lia].
  - inversion W; subst. destruct H3 as [<-|[]]. destruct (IHT q P) as (k & K & L). exists k. split; [exact K|lia].
  - exists (S n). split; [constructor; exact T|lia].
  - inversion W; subst. destruct H3 as [E|[]]. inversion E; subst. destruct (IHT q P) as (k & K & L). exists k. split; [exact K|lia].
Qed.
Lemma tube_same_depth v n q q' : tube v n -> part q v -> part q' v -> depth q = depth q' -> q = q'.
Proof.
  intros T. revert q q'. induction T; intros q q' P P' D; apply part_cases in P as [->|(w & W & P)]; apply part_cases in P' as [->|(w' & W' & P')]; auto;
    try (inversion W; subst; match goal with H : In _ [] |- _ => destruct H end);
    try (inversion W'; subst; match goal with H : In _ [] |- _ => destruct H end);
    try (exfalso; apply part_depth in P'; apply holds_depth in W'; lia);
    try (exfalso; apply part_depth in P; apply holds_depth in W; lia).
  - inversion W; subst. inversion W'; subst. destruct H3 as [<-|[]]. destruct H4 as [<-|[]]. auto.
  - inversion W; subst. inversion W'; subst. destruct H3 as [E|[]]. destruct H4 as [E'|[]]. inversion E; inversion E'; subst. auto.
Qed.
Lemma held_none h b : (forall a j, In (a, j) h -> ~ In b (in_kids j)) -> held h b = 0.
Proof.
  induction h as [|[a j] h IH]; intros F; [reflexivity|]. rewrite held_cons, IH by (intros a' j' I; apply (F a'); right; exact I).
  pose proof (F a j (or_introl eq_refl)) as N. rewrite occ_in in N. lia.
Qed.
Lemma held_once h b p : NoDup (map fst h) -> (forall a j, In (a, j) h -> In b (in_kids j) -> a = p /\ in_kids j = [b]) -> held h b <= 1.
Proof.
  induction h as [|[a j] h IH]; intros Nd F; [cbn; lia|]. cbn [map fst] in Nd. inversion Nd; subst. rewrite held_cons.
  destruct (in_dec N.eq_dec b (in_kids j)) as [I|I].
  - destruct (F a j (or_introl eq_refl) I) as [-> ->]. rewrite held_none.
    + unfold occ. cbn. destruct (N.eq_dec b b); lia.
    + intros a' j' I' K. destruct (F a' j' (or_intror I') K) as [-> _]. apply H1. apply (in_map fst _ _ I').
  - rewrite occ_in in I. specialize (IH H2 (fun a' j' I' => F a' j' (or_intror I'))). lia.
Qed.
(** If the program holds one handle only, to [o], then nothing but [o] is in memory. *)
Lemma only_parts s m o : rt_reach s -> laid_out s m o -> rt_vars s = [m (obj_id o)] -> rt_drop s = [] ->
  forall n a x, hfind (rt_heap s) a = Some x -> (rt_created s - in_nth x < n)%nat -> exists p i, part p (VObj o) /\ id_of p = Some i /\ a = m i /\ in_kids x = map m (kids p).
Proof.
  intros R L V D. pose proof (reach_ok _ R) as K. induction n as [|n IH]; intros a x F B; [lia|].
  pose proof (rk_count _ K a) as C. unfold handles in C. rewrite F, D, V in C. pose proof (rk_pos _ K _ _ F) as Po.
  destruct (N.eq_dec a (m (obj_id o))) as [->|Da].
  - exists (VObj o), (obj_id o). split; [constructor|]. split; [reflexivity|]. split; [reflexivity|].
    destruct (lo_there _ _ _ L (VObj o) (obj_id o) (part_self _) eq_refl) as (y & Fy & Ky). congruence.
  - assert (H : 1 <= held (rt_heap s) a). { rewrite occ_cons in C. destruct (N.eqb_spec a (m (obj_id o))); [contradiction|]. unfold occ in C. cbn in C. lia. }
    assert (X : exists b j, In (b, j) (rt_heap s) /\ In a (in_kids j)).
    { clear - H. induction (rt_heap s) as [|[c k] h IHh]; [cbn in H; lia|]. rewrite held_cons in H.
      destruct (N.le_gt_cases 1 (occ a (in_kids k))) as [O|O].
      - exists c, k. split; [left; reflexivity|]. apply occ_in. exact O.
      - destruct IHh as (b & j & Ib & Ia); [lia|]. exists b, j. split; [right; exact Ib|exact Ia]. }
    destruct X as (b & j & Ib & Ia). pose proof (in_find _ _ _ (rk_keys _ K) Ib) as Fb. pose proof (rk_down _ K _ _ _ _ Fb Ia F) as Lt.
    destruct (IH b j Fb) as (p & i & Pp & Ip & -> & Kp); [pose proof (rk_old _ K _ _ Ib); lia|].
    rewrite Kp in Ia. apply in_map_iff in Ia as (k & <- & Ik). apply kids_held in Ik as (w & W & Iw).
    assert (Pw : part w (VObj o)) by (eapply part_trans; [apply holds_part; exact W|exact Pp]).
    exists w, k. split; [exact Pw|]. split; [exact Iw|]. split; [reflexivity|].
    destruct (lo_there _ _ _ L w k Pw Iw) as (y & Fy & Ky). congruence.
Qed.
Lemma tube_owned s m o n : rt_reach s -> laid_out s m o -> rt_vars s = [m (obj_id o)] -> rt_drop s = [] ->
  (forall p q i, part p (VObj o) -> part q (VObj o) -> id_of p = Some i -> id_of q = Some i -> p = q) ->
  tube (VObj o) n -> owned (rt_heap s) (m (obj_id o)) n.
Proof.
  intros R L V D Sm T. pose proof (reach_ok _ R) as K.
  assert (One : forall p i x, part p (VObj o) -> id_of p = Some i -> hfind (rt_heap s) (m i) = Some x -> in_strong x = 1).
  { intros p i x Pp Ip F. pose proof (rk_count _ K (m i)) as C. rewrite F, D in C. unfold handles in C. rewrite V in C. pose proof (rk_pos _ K _ _ F) as Po.
    assert (Hd : forall a j, In (a, j) (rt_heap s) -> In (m i) (in_kids j) -> exists q iq, part q (VObj o) /\ id_of q = Some iq /\ a = m iq /\ holds q p /\ in_kids j = [m i]).
    { intros a j I Ik. pose proof (in_find _ _ _ (rk_keys _ K) I) as Fa.
      destruct (only_parts s m o R L V D _ a j Fa (Nat.lt_succ_diag_r _)) as (q & iq & Pq & Iq & -> & Kq).
      rewrite Kq in Ik. apply in_map_iff in Ik as (k & Ek & Ik). pose proof Ik as Ik'. apply kids_held in Ik as (w & W & Iw).
      assert (Pw : part w (VObj o)) by (eapply part_trans; [apply holds_part; exact W|exact Pq]).
      assert (k = i) by (eapply (lo_apart _ _ _ L w p); eauto). subst k. assert (w = p) by (eapply Sm; eauto). subst w.
      exists q, iq. split; [exact Pq|]. split; [exact Iq|]. split; [reflexivity|]. split; [exact W|].
      destruct (tube_part _ _ q T Pq) as (kq & Tq & _). destruct (tube_holds q kq p Tq W) as (k' & _ & _ & E). rewrite Kq, (E i Ip). reflexivity. }
    cbn [occ] in C. destruct (N.eq_dec i (obj_id o)) as [->|Di].
    - assert (p = VObj o) by (apply (Sm p (VObj o) (obj_id o)); auto using part_self). subst p.
      rewrite held_none in C. { rewrite occ_cons, N.eqb_refl in C. unfold occ in C. cbn in C. lia. }
      intros a j I Ik. destruct (Hd a j I Ik) as (q & iq & Pq & _ & _ & W & _). apply holds_depth in W. apply part_depth in Pq. lia.
    - assert (Dm : m i <> m (obj_id o)). { intros E. apply Di. apply (lo_apart _ _ _ L p (VObj o) i (obj_id o)); auto using part_self. }
      rewrite occ_cons in C. destruct (N.eqb_spec (m i) (m (obj_id o))); [contradiction|].
      assert (held (rt_heap s) (m i) <= 1); [|unfold occ in C; cbn in C; lia].
      destruct (N.eq_dec (held (rt_heap s) (m i)) 0) as [Z|Z]; [lia|].
      destruct (held_by_part p (VObj o) Pp) as [->|(q & Pq & W)]; [exfalso; apply Di; cbn in Ip; congruence|].
      assert (Iq : exists iq, id_of q = Some iq) by (destruct W; eexists; reflexivity). destruct Iq as [iq Iq].
      apply (held_once _ _ (m iq) (rk_keys _ K)). intros a j I Ik. destruct (Hd a j I Ik) as (q' & iq' & Pq' & Iq' & -> & W' & Kj).
      split; [|exact Kj]. f_equal. assert (q' = q); [|congruence]. eapply tube_same_depth; eauto.
      destruct (tube_part _ _ q T Pq) as (k1 & T1 & _). destruct (tube_part _ _ q' T Pq') as (k2 & T2 & _).
      destruct (tube_holds _ _ _ T1 W) as (k3 & T3 & -> & _). destruct (tube_holds _ _ _ T2 W') as (k4 & T4 & -> & _).
      rewrite (tube_depth _ _ T1), (tube_depth _ _ T2). apply tube_depth in T3. apply tube_depth in T4. lia. }
  enough (X : forall v n, tube v n -> part v (VObj o) -> forall i, id_of v = Some i -> owned (rt_heap s) (m i) n) by (apply (X (VObj o)); auto; constructor).
  clear T n. intros v n T. induction T as [i t|i t w n T IH|i f w n T IH]; intros Pv j E; inversion E; subst j.
  - destruct (lo_there _ _ _ L _ i Pv eq_refl) as (x & F & Kx). eapply owned_one; eauto.
  - destruct (lo_there _ _ _ L _ i Pv eq_refl) as (x & F & Kx).
    assert (W : exists k, id_of w = Some k) by (destruct T; eexists; reflexivity). destruct W as [k Ik].
    eapply owned_more; [exact F|eapply One; eauto| |].
    + rewrite Kx. cbn. rewrite Ik. left. reflexivity.
    + apply (IH (part_trans _ _ _ (holds_part _ _ (holds_arr i t [w] w (or_introl eq_refl))) Pv) k Ik).
  - destruct (lo_there _ _ _ L _ i Pv eq_refl) as (x & F & Kx).
    assert (W : exists k, id_of w = Some k) by (destruct T; eexists; reflexivity). destruct W as [k Ik].
    eapply owned_more; [exact F|eapply One; eauto| |].
    + rewrite Kx. cbn. rewrite Ik. left. reflexivity.
    + apply (IH (part_trans _ _ _ (holds_part _ _ (holds_field i [(f, w)] None f w (or_introl eq_refl))) Pv) k Ik).
Qed.
(** For every stack there is a text that loads, and the process dies when the last handle to the Obj is dropped. *)
Theorem C65_overflow fs g frames : process g -> exists text o, from_str fs g text = Some (OOk o) /\
  (forall s m, rt_reach s -> laid_out s m o -> rt_vars s = [m (obj_id o)] -> rt_drop s = [] ->
     drop_within frames (rt_heap s) (m (obj_id o)) = None) /\
  exists s, rt_reach s /\ laid_out s (fun i => i) o /\ rt_vars s = [obj_id o] /\ rt_drop s = [].
Proof.
  intros P. destruct (chain_text frames) as (t & R). destruct (chain_eval (include_meaning fs None) frames (init_sh g)) as (gl & y & v & E & F & A & T).
  exists t. assert (H : r_doc (chain_items frames) t).
  { exists [], t, []. split; [rewrite app_nil_r; reflexivity|]. split; [constructor|]. split; [exact R|left; auto]. }
  exists (MkObj (g_next (sh_g y)) [(lit "x", v)] None).
  assert (Ld : from_str fs g t = Some (OOk (MkObj (g_next (sh_g y)) [(lit "x", v)] None))).
  { apply (str_ok fs g _ _ H). unfold str_meaning, meaning, ev_doc, chain_items, ebind. rewrite items_app. unfold ebind. rewrite E. cbn [fst snd].
    rewrite ev_items_cons, (legal_kind _ x_legal). cbn [map mem_str existsb]. unfold ebind. rewrite ev_atom_expr. cbn [ev_atom]. unfold ev_name, ebind, eglobals. cbn [fst].
    fold (gnm frames). rewrite A. cbn. eexists. reflexivity. }
  assert (Lt : exists g', loads_to fs g (MkObj (g_next (sh_g y)) [(lit "x", v)] None) g').
  { unfold from_str in Ld. destruct (parse_obj_str fs g t) as [r sh] eqn:Q. exists (sh_g sh). left. exists t, sh. split; [|reflexivity].
    cbn [fst] in Ld. destruct r; cbn in Ld; inversion Ld; subst. exact Q. }
  destruct Lt as [g' Lt]. split; [exact Ld|]. split; [|eapply C65_in_memory; eauto].
  intros s m Rs L V D. destruct (drop_within frames (rt_heap s) _) as [h'|] eqn:Dr; [|reflexivity]. exfalso.
  assert (O : owned (rt_heap s) (m (obj_id (MkObj (g_next (sh_g y)) [(lit "x", v)] None))) (S (S frames))).
  { apply tube_owned; auto; [|constructor; exact T]. destruct (load_heap _ _ _ _ P Lt) as (Hp & K & _). intros p q i Pp Pq Ip Iq.
    destruct (K _ _ Pp Ip) as [_ <-]. destruct (K _ _ Pq Iq) as [_ <-]. reflexivity. }
  enough (S (S frames) <= frames)%nat by lia.
  eapply (C65_needed frames s); eauto; [rewrite V; left; reflexivity|]. congruence.
Qed.

(** ** Examples *)
Definition ex_text : str := lit "a: [] b: [a a] c: (b 1)".
Definition ex_loaded : obj := match from_str no_fs g0 ex_text with Some (OOk o) => o | _ => obj_empty 0 end.
Example C65_ex_loads : exists g', loads_to no_fs g0 ex_loaded g' /\ depth_obj ex_loaded = 4.
Proof. eexists. split; [|vm_compute; reflexivity]. left. exists ex_text. eexists. split; [vm_compute; reflexivity|reflexivity]. Qed.
Example C65_ex : exists s, rt_reach s /\ laid_out s (fun i => i) ex_loaded /\ rt_vars s = [obj_id ex_loaded] /\
  drop_within 4 (rt_heap s) (obj_id ex_loaded) = Some [].
Proof.
  destruct C65_ex_loads as (g' & L & D). destruct (C65_in_memory _ _ _ _ pr_start L) as (s & R & Lo & V & Dr). exists s.
  split; [exact R|]. split; [exact Lo|]. split; [exact V|].
  destruct (C65_loaded 4 s (fun i => i) ex_loaded R Lo) as (h' & E & Z); [rewrite V; left; reflexivity|rewrite D; reflexivity|].
  rewrite E, Z; auto.
Qed.
(** The counts decide: the instance 10 is freed by its third handle. *)
Definition ex_heap : list (addr * inst) := [(30, mkinst 2 1 [20; 10]); (20, mkinst 1 1 [10; 10]); (10, mkinst 0 3 [])].
Example C65_ex_heap : drop_within 3 ex_heap 30 = Some [] /\ drop_within 2 ex_heap 30 = None /\
  drop_within 3 ex_heap 10 = Some [(30, mkinst 2 1 [20; 10]); (20, mkinst 1 1 [10; 10]); (10, mkinst 0 2 [])] /\
  nested ex_heap 30 3 /\ owned ex_heap 30 2.
Proof.
  split; [reflexivity|]. split; [reflexivity|]. split; [reflexivity|]. split.
  - eapply nested_more; [reflexivity|left; reflexivity|]. eapply nested_more; [reflexivity|left; reflexivity|]. eapply nested_one; reflexivity.
  - eapply owned_more; [reflexivity|reflexivity|left; reflexivity|]. eapply owned_one; reflexivity.
Qed.
End P.

Print Assumptions C65_drop_is_right.
Print Assumptions C65_enough.
Print Assumptions C65_needed.
Print Assumptions C65_loaded.
Print Assumptions C65_in_memory.
Print Assumptions C65_overflow.
