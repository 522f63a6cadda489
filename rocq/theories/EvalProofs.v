(** * EvalProofs: induction over documents, and what an evaluation does to its state. *)
From Verif Require Export LangSpec.
From Coq Require String.
Import String.StringSyntax.
Open Scope N_scope.

(** ** Induction over atoms and expressions *)
Section Ind.
Variable PA : atom -> Prop.
Variable PE : expr -> Prop.
Hypothesis Hnum : forall w, PA (ANum w).
Hypothesis Hstr : forall cs, PA (AStr cs).
Hypothesis Hvar : forall g n, PA (AVar g n).
Hypothesis Hdot : forall g n sub, PA sub -> PA (ADot g n sub).
Hypothesis Hun : forall op a, PA a -> PA (AUn op a).
Hypothesis Harr : forall es, Forall PE es -> PA (AArr es).
Hypothesis Htup : forall es, Forall PE es -> PA (ATup es).
Hypothesis Hobj : forall its, Forall (fun p => PE (snd p)) its -> PA (AObj its).
Hypothesis Hinc : forall e p, PE e -> (forall e2, p = Some e2 -> PE e2) -> PA (AInc e p).
Hypothesis Hex : forall a l, PA a -> Forall (fun p => PA (snd p)) l -> PE (Ex a l).
Fixpoint atom_rec' (a : atom) : PA a :=
  match a with
  | ANum w => Hnum w
  | AStr cs => Hstr cs
  | AVar g n => Hvar g n
  | ADot g n sub => Hdot g n sub (atom_rec' sub)
  | AUn op a => Hun op a (atom_rec' a)
  | AArr es => Harr es ((fix go l : Forall PE l :=
      match l with [] => Forall_nil _ | e :: l' => Forall_cons e (expr_rec' e) (go l') end) es)
  | ATup es => Htup es ((fix go l : Forall PE l :=
      match l with [] => Forall_nil _ | e :: l' => Forall_cons e (expr_rec' e) (go l') end) es)
  | AObj its => Hobj its ((fix go l : Forall (fun p => PE (snd p)) l :=
      match l with [] => Forall_nil _ | p :: l' => Forall_cons p (expr_rec' (snd p)) (go l') end) its)
  | AInc e p => Hinc e p (expr_rec' e) (match p with
      | Some e2 => fun e2' E => match E in _ = o return match o with Some x => PE x | None => True end with eq_refl => expr_rec' e2 end
      | None => fun e2' E => match E in _ = o return match o with Some x => PE x | None => True end with eq_refl => I end
      end)
  end
with expr_rec' (e : expr) : PE e :=
  match e with
  | Ex a l => Hex a l (atom_rec' a) ((fix go l : Forall (fun p => PA (snd p)) l :=
      match l with [] => Forall_nil _ | p :: l' => Forall_cons p (atom_rec' (snd p)) (go l') end) l)
  end.
Lemma ast_ind : (forall a, PA a) /\ (forall e, PE e).
Proof. split; [exact atom_rec'|exact expr_rec']. Qed.
End Ind.

(** ** Unfolding *)
Section Unf.
Variable inc : inc_ty -> str -> ES value.
Variable lim : N -> bool.
Lemma ev_arr d fields es : ev_atom inc lim d fields (AArr es) =
  deep lim (d + 1) (do vs <- emap (ev_expr inc lim (d + 1) fields) es;;
    match lub (map get_type vs) with
    | Some t => do i <- fresh;; eret (VArr (MkArr i t vs))
    | None => efail
    end).
Proof. reflexivity. Qed.
Lemma ev_tup d fields es : ev_atom inc lim d fields (ATup es) =
  deep lim (d + 1) (do vs <- emap (ev_expr inc lim (d + 1) fields) es;;
    do i <- fresh;; eret (VTup (MkTup i (map get_type vs) vs))).
Proof. reflexivity. Qed.
Lemma ev_obj d fields its : ev_atom inc lim d fields (AObj its) =
  deep lim (d + 1) (do r <- ev_items (ev_expr inc lim (d + 1)) its [] None;;
    do i <- fresh;; eret (VObj (MkObj i (fst r) (snd r)))).
Proof. reflexivity. Qed.
Lemma ev_inc d fields e p : ev_atom inc lim d fields (AInc e p) =
  deep lim (d + 1) (
        do v <- ev_expr inc lim (d + 1) fields e;;
        match v with
        | VStr f => match p with None => inc IObj f | Some _ => efail end
        | VObj o =>
            do k <- ev_keyword o [IObj; IStr; IArr; ITup];;
            match k, p with
            | Some k, Some e2 =>
                do v2 <- ev_expr inc lim (d + 1) fields e2;;
                match v2 with VStr f => inc k f | _ => efail end
            | _, _ => efail
            end
        | _ => efail
        end).
Proof. reflexivity. Qed.
Lemma ev_dot d fields g n sub : ev_atom inc lim d fields (ADot g n sub) =
  (do v <- ev_name fields g n;;
      match v with
      | VArr a => do i <- ev_atom inc lim (d + 1) fields sub;; elift (ev_index (arr_values a) i)
      | VTup t => do i <- ev_atom inc lim (d + 1) fields sub;; elift (ev_index (tup_values t) i)
      | VObj o =>
          match sub with
          | AVar false _ | ADot false _ _ => ev_atom inc lim (d + 1) (obj_pairs o) sub
          | _ => efail
          end
      | _ => efail
      end).
Proof. reflexivity. Qed.
Lemma ev_items_cons (ev : list pair_t -> expr -> ES value) f e its fields parent :
  ev_items ev ((f, e) :: its) fields parent =
    match kind_of_item f with
    | KIllegal => efail
    | KGlobal =>
        do g <- eglobals;;
        match assoc f g with
        | Some _ => efail
        | None => do v <- ev fields e;; do _ <- edefine f v;; ev_items ev its fields parent
        end
    | KParent =>
        match parent with
        | Some _ => efail
        | None =>
            do v <- ev fields e;;
            match v with VObj o => ev_items ev its fields (Some o) | _ => efail end
        end
    | KField =>
        if mem_str f (map fst fields) then efail
        else do v <- ev fields e;; ev_items ev its (fields ++ [(f, v)]) parent
    end.
Proof. reflexivity. Qed.
End Unf.

(** ** Inversion of a bind *)
Lemma ebind_some {A B} (m : ES A) (f : A -> ES B) x b z : ebind m f x = Some (b, z) ->
  exists a y, m x = Some (a, y) /\ f a y = Some (b, z).
Proof. unfold ebind. destruct (m x) as [[a y]|]; [eauto|discriminate]. Qed.
Lemma elift_some {A} (o : option A) x a y : elift o x = Some (a, y) -> o = Some a /\ y = x.
Proof. unfold elift, eret, efail. destruct o; [|discriminate]. intros E; inversion E; auto. Qed.

(** ** Later states *)

(** What can have happened to the process between two moments: ids were drawn, sentinels created. *)
Definition g_later (g0 g : gstate) : Prop :=
  g_next g0 <= g_next g /\
  forall k, match g_sent g0 k with
            | Some i => g_sent g k = Some i
            | None => match g_sent g k with Some i => g_next g0 <= i < g_next g | None => True end
            end.
(** The state of any process: sentinels have ids that were drawn, each its own, and are not instances that
    another thread created for itself. *)
Definition g_ok (g : gstate) : Prop :=
  (forall k i, g_sent g k = Some i -> i < g_next g) /\
  (forall k k' i, g_sent g k = Some i -> g_sent g k' = Some i -> k = k') /\
  (forall i, In i (g_taken g) -> i < g_next g /\ forall k, g_sent g k <> Some i).

Lemma g_later_refl g : g_later g g.
Proof. split; [lia|]. intros k. destruct (g_sent g k); auto. Qed.
Lemma g_later_trans g1 g2 g3 : g_later g1 g2 -> g_later g2 g3 -> g_later g1 g3.
Proof.
  intros [A1 B1] [A2 B2]. split; [lia|]. intros k. specialize (B1 k). specialize (B2 k).
  destruct (g_sent g1 k) as [i|].
  - rewrite B1 in B2. exact B2.
  - destruct (g_sent g2 k) as [i|].
    + rewrite B2. lia.
    + destruct (g_sent g3 k); auto. lia.
Qed.
Lemma sent_set g k i k' : g_sent (g_set_sent g k i) k' = if match k, k' with IObj, IObj | IStr, IStr | IArr, IArr | ITup, ITup => true | _, _ => false end
  then Some i else g_sent g k'.
Proof. destruct k, k'; reflexivity. Qed.
Lemma next_set g k i : g_next (g_set_sent g k i) = g_next g.
Proof. destruct k; reflexivity. Qed.
Lemma sent_draw g k : g_sent (g_draw g) k = g_sent g k.
Proof. destruct k; reflexivity. Qed.
Lemma sent_take g i k : g_sent (g_take g i) k = g_sent g k.
Proof. destruct k; reflexivity. Qed.
Lemma taken_set g k i : g_taken (g_set_sent g k i) = g_taken g.
Proof. destruct k; reflexivity. Qed.
Lemma next_draw g : g_next (g_draw g) = g_next g + 1.
Proof. reflexivity. Qed.

(** What one step of any thread does, and what no such step changes. *)
Definition kind_eqb (k k' : inc_ty) : bool :=
  match k, k' with IObj, IObj | IStr, IStr | IArr, IArr | ITup, ITup => true | _, _ => false end.
Lemma kind_eqb_eq k k' : kind_eqb k k' = true <-> k = k'.
Proof. destruct k, k'; cbn; split; congruence. Qed.
Lemma sent_new g k k' : g_sent (g_set_sent (g_draw g) k (g_next g)) k' = if kind_eqb k k' then Some (g_next g) else g_sent g k'.
Proof. rewrite sent_set, sent_draw. destruct k, k'; reflexivity. Qed.
Lemma later_draw g0 g : g_later g0 g -> g_later g0 (g_draw g).
Proof.
  intros [A B]. split; [rewrite next_draw; lia|]. intros k. specialize (B k). rewrite sent_draw, next_draw.
  destruct (g_sent g0 k); auto. destruct (g_sent g k); auto. lia.
Qed.
Lemma later_take g0 g i : g_later g0 g -> g_later g0 (g_take g i).
Proof. intros [A B]. split; [exact A|]. intros k. rewrite sent_take. exact (B k). Qed.
Lemma later_new g0 g k : g_later g0 g -> g_sent g k = None -> g_later g0 (g_set_sent (g_draw g) k (g_next g)).
Proof.
  intros [A B] N. split; [rewrite next_set, next_draw; lia|]. intros k'. specialize (B k').
  rewrite sent_new, next_set, next_draw. destruct (kind_eqb k k') eqn:E.
  - apply kind_eqb_eq in E. subst k'. rewrite N in B. destruct (g_sent g0 k); [discriminate|lia].
  - destruct (g_sent g0 k'); auto. destruct (g_sent g k'); auto. lia.
Qed.
Lemma later_act g0 g a : g_later g0 g -> g_later g0 (g_act g a).
Proof.
  intros L. destruct a as [|k]; cbn [g_act]; [apply later_take, later_draw; auto|].
  unfold g_keyword. destruct (g_sent g k) eqn:E; auto. apply later_new; auto.
Qed.
Lemma later_interfere g0 g : g_later g0 g -> g_later g0 (interfere g).
Proof.
  intros L. unfold interfere. destruct (g_others g) as [|b bs]; auto.
  set (g1 := mkg _ _ _ _ _ _ _). assert (L1 : g_later g0 g1).
  { destruct L as [A B]. split; [exact A|]. intros k. specialize (B k). destruct k; exact B. }
  clearbody g1. revert g1 L1. induction b; cbn [fold_left]; auto. intros. apply IHb, later_act; auto.
Qed.
Lemma ok_draw g : g_ok g -> g_ok (g_draw g).
Proof.
  intros (A & B & C). split; [|split].
  - intros k i. rewrite sent_draw, next_draw. intros H. apply A in H. lia.
  - intros k k' i. rewrite !sent_draw. apply B.
  - intros i H. apply C in H as [H K]. rewrite next_draw. split; [lia|]. intros k. rewrite sent_draw. auto.
Qed.
Lemma ok_take g : g_ok g -> g_ok (g_take (g_draw g) (g_next g)).
Proof.
  intros G. destruct (ok_draw g G) as (A & B & C). destruct G as (A0 & _ & _). split; [|split].
  - intros k i. rewrite sent_take. apply A.
  - intros k k' i. rewrite !sent_take. apply B.
  - intros i [<-|H].
    + cbn. split; [lia|]. intros k. rewrite sent_take, sent_draw. intros E. apply A0 in E. lia.
    + apply C in H as [H K]. split; [exact H|]. intros k. rewrite sent_take. auto.
Qed.
Lemma ok_new g k : g_ok g -> g_sent g k = None -> g_ok (g_set_sent (g_draw g) k (g_next g)).
Proof.
  intros (A & B & C) N. split; [|split].
  - intros k' i. rewrite sent_new, next_set, next_draw. destruct (kind_eqb k k').
    + intros E; inversion E; lia.
    + intros H. apply A in H. lia.
  - intros k1 k2 i. rewrite !sent_new. destruct (kind_eqb k k1) eqn:E1, (kind_eqb k k2) eqn:E2; intros H1 H2.
    + apply kind_eqb_eq in E1, E2. congruence.
    + inversion H1; subst. apply A in H2. lia.
    + inversion H2; subst. apply A in H1. lia.
    + eapply B; eauto.
  - intros i. rewrite taken_set, next_set, next_draw. intros H. apply C in H as [H K]. split; [lia|].
    intros k'. rewrite sent_new. destruct (kind_eqb k k'); auto. intros E. inversion E. lia.
Qed.
Lemma ok_act g a : g_ok g -> g_ok (g_act g a).
Proof.
  intros L. destruct a as [|k]; cbn [g_act]; [apply ok_take; auto|].
  unfold g_keyword. destruct (g_sent g k) eqn:E; auto. apply ok_new; auto.
Qed.
Lemma ok_interfere g : g_ok g -> g_ok (interfere g).
Proof.
  intros L. unfold interfere. destruct (g_others g) as [|b bs]; auto.
  set (g1 := mkg _ _ _ _ _ _ _). assert (L1 : g_ok g1).
  { destruct L as (A & B & C). split; [|split].
    - intros k i. specialize (A k i). destruct k; exact A.
    - intros k k' i. specialize (B k k' i). destruct k, k'; exact B.
    - intros i H. apply C in H as [H K]. split; [exact H|]. intros k. specialize (K k). destruct k; exact K. }
  clearbody g1. revert g1 L1. induction b; cbn [fold_left]; auto. intros. apply IHb, ok_act; auto.
Qed.
(** Other threads' new instances and sentinels are newer than all ids drawn before. *)
Lemma old_act g a i : i < g_next g ->
  i < g_next (g_act g a) /\ (forall k, g_sent (g_act g a) k = Some i <-> g_sent g k = Some i) /\
  (In i (g_taken (g_act g a)) <-> In i (g_taken g)).
Proof.
  intros L. destruct a as [|k]; cbn [g_act].
  - cbn [g_next g_take g_draw g_taken In]. split; [lia|]. split; [intros k; rewrite sent_take, sent_draw; tauto|].
    split; [intros [?|?]; [lia|auto]|auto].
  - unfold g_keyword. destruct (g_sent g k) eqn:E; [split; [auto|split; [tauto|tauto]]|].
    rewrite next_set, next_draw, taken_set. split; [lia|]. split; [|tauto]. intros k'. rewrite sent_new.
    destruct (kind_eqb k k') eqn:K; [|tauto]. apply kind_eqb_eq in K. subst k'. rewrite E.
    split; intros H; [inversion H; lia|discriminate].
Qed.
Lemma old_interfere g i : i < g_next g ->
  i < g_next (interfere g) /\ (forall k, g_sent (interfere g) k = Some i <-> g_sent g k = Some i) /\
  (In i (g_taken (interfere g)) <-> In i (g_taken g)).
Proof.
  intros L. unfold interfere. destruct (g_others g) as [|b bs]; [split; [auto|split; [tauto|tauto]]|].
  set (g1 := mkg _ _ _ _ _ _ _).
  assert (L1 : i < g_next g1) by exact L.
  assert (S1 : forall k, g_sent g1 k = Some i <-> g_sent g k = Some i) by (intros []; cbn; tauto).
  assert (T1 : In i (g_taken g1) <-> In i (g_taken g)) by (cbn; tauto).
  clearbody g1. revert g1 L1 S1 T1. induction b as [|a b IH]; cbn [fold_left]; intros; auto.
  destruct (old_act g1 a i L1) as (La & Sa & Ta). apply IH; auto; [|tauto]. intros k. rewrite Sa. auto.
Qed.
Lemma next_bump g : g_next g < g_next (bump g).
Proof.
  assert (g_later (g_draw g) (bump g)) as [H _] by (apply later_interfere, g_later_refl). rewrite next_draw in H. lia.
Qed.
Lemma next_new_sent g k : g_next g < g_next (g_new_sent g k).
Proof.
  assert (g_later (g_set_sent (g_draw g) k (g_next g)) (g_new_sent g k)) as [H _] by (apply later_interfere, g_later_refl).
  rewrite next_set, next_draw in H. lia.
Qed.
Lemma old_bump g i : i < g_next g ->
  i < g_next (bump g) /\ (forall k, g_sent (bump g) k = Some i <-> g_sent g k = Some i) /\
  (In i (g_taken (bump g)) <-> In i (g_taken g)).
Proof.
  intros L. destruct (old_interfere (g_draw g) i) as (A & B & C); [rewrite next_draw; lia|].
  split; [exact A|]. split; [exact B|exact C].
Qed.
(** The id just drawn belongs to nobody else. *)
Lemma own_bump g : g_ok g -> g_next g < g_next (bump g) /\ (forall k, g_sent (bump g) k <> Some (g_next g)) /\
  ~ In (g_next g) (g_taken (bump g)).
Proof.
  intros (A & _ & C). destruct (old_interfere (g_draw g) (g_next g)) as (A1 & B1 & C1); [rewrite next_draw; lia|].
  split; auto. split.
  - intros k E. apply B1 in E. rewrite sent_draw in E. apply A in E. lia.
  - intros H. apply C1 in H. apply C in H. lia.
Qed.
Lemma sent_new_sent g k i : i <= g_next g -> g_ok g -> g_sent g k = None ->
  i < g_next (g_new_sent g k) /\
  (forall k', g_sent (g_new_sent g k) k' = Some i <-> (if kind_eqb k k' then i = g_next g else g_sent g k' = Some i)) /\
  (In i (g_taken (g_new_sent g k)) <-> In i (g_taken g)).
Proof.
  intros L (A & _ & C) N. destruct (old_interfere (g_set_sent (g_draw g) k (g_next g)) i) as (A1 & B1 & C1);
    [rewrite next_set, next_draw; lia|].
  split; auto. split; [|rewrite taken_set in C1; exact C1]. intros k'.
  unfold g_new_sent. rewrite B1, sent_new. destruct (kind_eqb k k'); [|tauto]. split; congruence.
Qed.

Lemma sent_new_self g k : g_sent (g_new_sent g k) k = Some (g_next g).
Proof.
  destruct (old_interfere (g_set_sent (g_draw g) k (g_next g)) (g_next g)) as (_ & B & _);
    [rewrite next_set, next_draw; lia|]. apply B. rewrite sent_new. destruct k; reflexivity.
Qed.
Lemma later_bump g0 g : g_later g0 g -> g_later g0 (bump g).
Proof. intros. apply later_interfere, later_draw; auto. Qed.
Lemma later_sent g0 g k : g_later g0 g -> g_sent g k = None -> g_later g0 (g_new_sent g k).
Proof. intros. apply later_interfere, later_new; auto. Qed.
Lemma ok_bump g : g_ok g -> g_ok (bump g).
Proof. intros. apply ok_interfere, ok_draw; auto. Qed.
Lemma ok_sent g k : g_ok g -> g_sent g k = None -> g_ok (g_new_sent g k).
Proof. intros. apply ok_interfere, ok_new; auto. Qed.

(** ** The induction over an evaluation

    [R] relates the state before and after; it is kept by every step. *)
Section Rel.
Variable inc : inc_ty -> str -> ES value.
Variable lim : N -> bool.
Variable R : est -> est -> Prop.
Hypothesis R_refl : forall x, R x x.
Hypothesis R_trans : forall x y z, R x y -> R y z -> R x z.
Hypothesis R_fresh : forall x i y, fresh x = Some (i, y) -> R x y.
Hypothesis R_sent : forall x k o y, esentinel k x = Some (o, y) -> R x y.
Hypothesis R_def : forall x y f v, assoc f (fst x) = None -> R x y -> R x ((f, v) :: fst y, snd y).
Hypothesis R_inc : forall k p x v y, inc k p x = Some (v, y) -> R x y.

Definition keeps {A} (m : ES A) : Prop := forall x a y, m x = Some (a, y) -> R x y.
Lemma keeps_ret {A} (a : A) : keeps (eret a).
Proof. intros x b y E. inversion E; subst. apply R_refl. Qed.
Lemma keeps_fail {A} : keeps (@efail A).
Proof. intros x b y E. discriminate. Qed.
Lemma keeps_lift {A} (o : option A) : keeps (elift o).
Proof. destruct o; [apply keeps_ret|apply keeps_fail]. Qed.
Lemma keeps_bind {A B} (m : ES A) (f : A -> ES B) : keeps m -> (forall a, keeps (f a)) -> keeps (ebind m f).
Proof. intros Hm Hf x b z E. apply ebind_some in E as (a & y & E1 & E2). eapply R_trans; [eapply Hm|eapply Hf]; eauto. Qed.
Lemma keeps_fresh : keeps fresh.
Proof. intros x i y. apply R_fresh. Qed.
Lemma keeps_sent k : keeps (esentinel k).
Proof. intros x i y. apply R_sent. Qed.
Lemma keeps_globals : keeps eglobals.
Proof. intros x a y E. inversion E; subst. apply R_refl. Qed.
Lemma keeps_emap {A B} (f : A -> ES B) l : Forall (fun a => keeps (f a)) l -> keeps (emap f l).
Proof.
  induction 1 as [|a l Ha Hl IH]; cbn [emap]; [apply keeps_ret|].
  apply keeps_bind; auto. intros b. apply keeps_bind; auto. intros bs. apply keeps_ret.
Qed.
Lemma keeps_deep {A} d (m : ES A) : keeps m -> keeps (deep lim d m).
Proof. unfold deep. destruct (lim d); auto. intros _. apply keeps_fail. Qed.
Lemma keeps_name fields g n : keeps (ev_name fields g n).
Proof.
  unfold ev_name. destruct g.
  - apply keeps_bind; [apply keeps_globals|]. intros. apply keeps_lift.
  - destruct (assoc n constants); [apply keeps_ret|]. destruct (assoc n keywords); [|apply keeps_lift].
    apply keeps_bind; [apply keeps_sent|]. intros. apply keeps_ret.
Qed.
Lemma keeps_op op v w : keeps (ev_op op v w).
Proof.
  unfold ev_op. destruct op; try apply keeps_lift. destruct v; try apply keeps_lift. destruct w; try apply keeps_lift.
  destruct (most_specific _ _) as [[]|]; [|apply keeps_fail].
  apply keeps_bind; [apply keeps_fresh|]. intros. apply keeps_ret.
Qed.
Lemma keeps_chain l : forall acc cur, keeps (ev_chain acc cur l).
Proof.
  assert (AU : forall acc cur, keeps (add_up acc cur)).
  { intros [[s op]|] cur; [apply keeps_op|apply keeps_ret]. }
  induction l as [|[op w] l IH]; intros acc cur; cbn [ev_chain]; auto.
  destruct (is_priority op); apply keeps_bind; auto. apply keeps_lift.
Qed.
Lemma keeps_keyword o ks : keeps (ev_keyword o ks).
Proof.
  induction ks as [|k ks IH]; cbn [ev_keyword]; [apply keeps_ret|].
  apply keeps_bind; [apply keeps_sent|]. intros s. destruct (_ =? _); auto. apply keeps_ret.
Qed.
Lemma keeps_inc k p : keeps (inc k p).
Proof. intros x v y. apply R_inc. Qed.
Lemma keeps_items (ev : list pair_t -> expr -> ES value) its :
  Forall (fun p => forall fields, keeps (ev fields (snd p))) its -> forall fields parent, keeps (ev_items ev its fields parent).
Proof.
  induction 1 as [|[f e] its He Hits IH]; intros fields parent; [apply keeps_ret|]. rewrite ev_items_cons. cbn [snd] in He.
  destruct (kind_of_item f).
  - intros x r z E. apply ebind_some in E as (g & x1 & E1 & E). inversion E1; subst g x1.
    destruct (assoc f (fst x)) eqn:A; [discriminate|]. apply ebind_some in E as (v & y & E2 & E).
    apply ebind_some in E as (u & y2 & E3 & E). inversion E3; subst u y2.
    eapply R_trans; [|eapply IH; exact E]. apply R_def; auto. eapply He; eauto.
  - destruct parent; [apply keeps_fail|]. apply keeps_bind; auto. intros []; auto; apply keeps_fail.
  - destruct (mem_str _ _); [apply keeps_fail|]. apply keeps_bind; auto.
  - apply keeps_fail.
Qed.
Lemma keeps_ev : (forall a d fields, keeps (ev_atom inc lim d fields a)) /\
                 (forall e d fields, keeps (ev_expr inc lim d fields e)).
Proof.
  apply ast_ind.
  - intros w d fields. apply keeps_lift.
  - intros cs d fields. apply keeps_lift.
  - intros g n d fields. apply keeps_name.
  - intros g n sub IH d fields. rewrite ev_dot. apply keeps_bind; [apply keeps_name|].
    intros v. destruct v; try apply keeps_fail.
    + apply keeps_bind; auto. intros. apply keeps_lift.
    + apply keeps_bind; auto. intros. apply keeps_lift.
    + destruct sub; try apply keeps_fail; destruct glob; try apply keeps_fail; apply IH.
  - intros op a IH d fields. rewrite ev_un. apply keeps_bind; auto. intros. apply keeps_lift.
  - intros es IH d fields. rewrite ev_arr. apply keeps_deep, keeps_bind.
    + apply keeps_emap. eapply Forall_impl; [|exact IH]. cbn. intros; auto.
    + intros vs. destruct (lub _); [|apply keeps_fail]. apply keeps_bind; [apply keeps_fresh|]. intros. apply keeps_ret.
  - intros es IH d fields. rewrite ev_tup. apply keeps_deep, keeps_bind.
    + apply keeps_emap. eapply Forall_impl; [|exact IH]. cbn. intros; auto.
    + intros vs. apply keeps_bind; [apply keeps_fresh|]. intros. apply keeps_ret.
  - intros its IH d fields. rewrite ev_obj. apply keeps_deep, keeps_bind.
    + apply keeps_items. eapply Forall_impl; [|exact IH]. cbn. intros; auto.
    + intros r. apply keeps_bind; [apply keeps_fresh|]. intros. apply keeps_ret.
  - intros e p IH IH2 d fields. rewrite ev_inc. apply keeps_deep, keeps_bind; auto.
    intros v. destruct v; try apply keeps_fail.
    + destruct p; [apply keeps_fail|apply keeps_inc].
    + apply keeps_bind; [apply keeps_keyword|]. intros [k|]; [|apply keeps_fail].
      destruct p as [e2|]; [|apply keeps_fail]. apply keeps_bind; [apply IH2; auto|].
      intros v2. destruct v2; try apply keeps_fail. apply keeps_inc.
  - intros a l IHa IHl d fields. rewrite ev_expr_Ex. apply keeps_bind; auto. intros v.
    apply keeps_bind; [|intros; apply keeps_chain].
    apply keeps_emap. eapply Forall_impl; [|exact IHl]. intros [op b] H. cbn [snd] in H.
    apply keeps_bind; auto. intros. apply keeps_ret.
Qed.
Lemma keeps_all_items its d fields parent : keeps (ev_items (ev_expr inc lim d) its fields parent).
Proof. apply keeps_items. apply Forall_forall. intros p _ fl. apply keeps_ev. Qed.
End Rel.

(** ** The state after an evaluation *)

(** Globals keep their values, the process only moves on. *)
Definition st_later (x y : est) : Prop :=
  (forall f v, assoc f (fst x) = Some v -> assoc f (fst y) = Some v) /\ g_later (sh_g (snd x)) (sh_g (snd y)).
Lemma st_later_refl x : st_later x x.
Proof. split; [auto|apply g_later_refl]. Qed.
Lemma st_later_trans x y z : st_later x y -> st_later y z -> st_later x z.
Proof.
  intros [E1 G1] [E2 G2]. split; [auto|eapply g_later_trans; eauto].
Qed.

Section Top.
Context `{U : Unicode}.
Variable fs : fsys.
Variable file : option str.
Notation inc := (include_meaning fs file).

(** an include does not touch the globals, and keeps any property of the process *)
Lemma inc_globals k p x v y : inc k p x = Some (v, y) -> fst y = fst x.
Proof.
  unfold include_meaning, inc_of, finish_include. destruct x as [gl sh].
  unfold bind, getfile, get_sh, put_sh, run_include, fail, panic, ret, log_ev; cbn [s_file s_sh set_sh fst snd].
  unfold assert_. destruct (has_parent file); [|discriminate]. unfold ret.
  set (path := match file with Some f0 => beside f0 p | None => p end).
  destruct (negb (is_file fs path)); [discriminate|]. destruct (canon fs path) as [full|]; [|discriminate].
  destruct file as [f0|].
  - destruct (canon fs f0) as [ff|]; [|discriminate]. cbn [s_sh set_sh log_ev sh_vals sh_open sh_log sh_g].
    destruct (mem_str full _); [discriminate|]. destruct (assoc full (sh_vals sh)) as [w|].
    + intros E; inversion E; reflexivity.
    + match goal with |- context [load_file fs ?n k path ?x] => destruct (load_file fs n k path x) as [[w|e| |] sh'] end;
        intros E; inversion E; reflexivity.
  - cbn [s_sh set_sh log_ev sh_vals sh_open sh_log sh_g].
    destruct (mem_str full _); [discriminate|]. destruct (assoc full (sh_vals sh)) as [w|].
    + intros E; inversion E; reflexivity.
    + match goal with |- context [load_file fs ?n k path ?x] => destruct (load_file fs n k path x) as [[w|e| |] sh'] end;
        intros E; inversion E; reflexivity.
Qed.
(** ... nor does it depend on them. *)
Lemma inc_globals_indep k p gl gl' sh v y : inc k p (gl, sh) = Some (v, y) ->
  inc k p (gl', sh) = Some (v, (gl', snd y)).
Proof.
  unfold include_meaning, inc_of, finish_include.
  unfold bind, getfile, get_sh, put_sh, run_include, fail, panic, ret, log_ev; cbn [s_file s_sh set_sh fst snd].
  unfold assert_. destruct (has_parent file); [|discriminate]. unfold ret.
  set (path := match file with Some f0 => beside f0 p | None => p end).
  destruct (negb (is_file fs path)); [discriminate|]. destruct (canon fs path) as [full|]; [|discriminate].
  destruct file as [f0|].
  - destruct (canon fs f0) as [ff|]; [|discriminate]. cbn [s_sh set_sh log_ev sh_vals sh_open sh_log sh_g].
    destruct (mem_str full _); [discriminate|]. destruct (assoc full (sh_vals sh)) as [w|].
    + intros E; inversion E; reflexivity.
    + cbn [s_sh set_sh sh_vals sh_open sh_log sh_g].
      match goal with |- context [load_file fs ?n k path ?x] => destruct (load_file fs n k path x) as [[w|e| |] sh'] end;
        intros E; inversion E; reflexivity.
  - cbn [s_sh set_sh log_ev sh_vals sh_open sh_log sh_g].
    destruct (mem_str full _); [discriminate|]. destruct (assoc full (sh_vals sh)) as [w|].
    + intros E; inversion E; reflexivity.
    + cbn [s_sh set_sh sh_vals sh_open sh_log sh_g].
      match goal with |- context [load_file fs ?n k path ?x] => destruct (load_file fs n k path x) as [[w|e| |] sh'] end;
        intros E; inversion E; reflexivity.
Qed.

Lemma inc_gp (GP : gstate -> Prop) (G1 : forall g, GP g -> GP (bump g))
  (G2 : forall g k, GP g -> g_sent g k = None -> GP (g_new_sent g k)) k p x v y :
  inc k p x = Some (v, y) -> wfvals (snd x) -> GP (sh_g (snd x)) -> GP (sh_g (snd y)) /\ wfvals (snd y).
Proof.
  intros E W G. unfold include_meaning, inc_of in E.
  pose proof (finish_wg fs GP (inc_fuel fs) (load_wg fs GP G1 G2 (inc_fuel fs)) [] file k p 0 0
    (mkst file [] 1 1 [] (snd x))) as F.
  specialize (F ltac:(split; [reflexivity|split; [apply in_text_init|split; [constructor|split; auto]]])).
  unfold wp in F.
  assert (E2 : inc k p ([], snd x) = Some (v, ([], snd y))).
  { destruct x as [gl sh]. cbn [snd] in *. apply inc_globals_indep with (gl := gl). exact E. }
  clear E.
  unfold include_meaning, inc_of in E2. cbn [fst snd] in E2.
  destruct (finish_include _ _ _ _ _ _ _) as [[w|e| |] s']; try discriminate.
  destruct F as ((_ & _ & _ & F1 & F2) & _). injection E2 as E2 E3 E4. rewrite <- E4. auto.
Qed.

(** Every evaluation: the globals grow, the process moves on, its invariant is kept. *)
Definition st_step (x y : est) : Prop :=
  wfvals (snd x) -> wfvals (snd y) /\ st_later x y /\ (g_ok (sh_g (snd x)) -> g_ok (sh_g (snd y))).
Lemma st_step_refl x : st_step x x.
Proof. intros W. split; auto. split; auto using st_later_refl. Qed.
Lemma st_step_trans x y z : st_step x y -> st_step y z -> st_step x z.
Proof.
  intros H1 H2 W. destruct (H1 W) as (W1 & L1 & G1). destruct (H2 W1) as (W2 & L2 & G2).
  split; auto. split; auto. eapply st_later_trans; eauto.
Qed.
Lemma st_step_fresh x i y : fresh x = Some (i, y) -> st_step x y.
Proof.
  destruct x as [gl sh]. cbn. intros E. inversion E; subst. intros W. split; [exact W|]. split.
  - split; [cbn; auto|]. apply (later_bump (sh_g sh)), g_later_refl.
  - apply (ok_bump (sh_g sh)).
Qed.
Lemma st_step_sent x k o y : esentinel k x = Some (o, y) -> st_step x y.
Proof.
  destruct x as [gl sh]. unfold esentinel. cbn [snd]. destruct (g_sent (sh_g sh) k) eqn:S.
  - intros E; inversion E; subst. apply st_step_refl.
  - cbn. intros E; inversion E; subst. intros W. split; [exact W|]. split.
    + split; [cbn; auto|]. apply (later_sent (sh_g sh) (sh_g sh) k); auto using g_later_refl.
    + intros G. apply (ok_sent (sh_g sh) k); auto.
Qed.
Lemma st_step_def x y f v : assoc f (fst x) = None -> st_step x y -> st_step x ((f, v) :: fst y, snd y).
Proof.
  intros A H W. destruct (H W) as (W1 & [L1 L2] & G). split; [exact W1|]. split; [|exact G]. split; [|exact L2].
  intros f' v' E. cbn [fst assoc]. destruct (str_eqb_spec f f') as [<-|]; [congruence|auto].
Qed.
Lemma st_step_inc k p x v y : inc k p x = Some (v, y) -> st_step x y.
Proof.
  intros E W. split.
  - apply (inc_gp (fun _ => True) (fun _ _ => I) (fun _ _ _ _ => I) k p x v y E W I).
  - split; [split|].
    + intros f w. rewrite (inc_globals _ _ _ _ _ E). auto.
    + apply (inc_gp (g_later (sh_g (snd x))) (later_bump _) (later_sent _) k p x v y E W). apply g_later_refl.
    + intros G. apply (inc_gp g_ok ok_bump ok_sent k p x v y E W G).
Qed.
Lemma step_atom lim d fields a x v y : ev_atom inc lim d fields a x = Some (v, y) -> st_step x y.
Proof.
  apply (proj1 (keeps_ev inc lim st_step st_step_refl st_step_trans st_step_fresh st_step_sent st_step_def st_step_inc)).
Qed.
Lemma step_expr lim d fields e x v y : ev_expr inc lim d fields e x = Some (v, y) -> st_step x y.
Proof.
  apply (proj2 (keeps_ev inc lim st_step st_step_refl st_step_trans st_step_fresh st_step_sent st_step_def st_step_inc)).
Qed.
Lemma step_items lim d its fields parent x r y :
  ev_items (ev_expr inc lim d) its fields parent x = Some (r, y) -> st_step x y.
Proof.
  apply (keeps_all_items inc lim st_step st_step_refl st_step_trans st_step_fresh st_step_sent st_step_def st_step_inc).
Qed.
End Top.
