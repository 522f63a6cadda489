(** * Back: an evaluation whose outcome is allowed took only allowed steps. *)
From Verif Require Export IncSemProofs.
Open Scope N_scope.

Section Back.
Variables inc inc' : inc_ty -> str -> ES value.
Variable lim : N -> bool.
(** [G]: states that are allowed; with a state every earlier one ([Le]) is allowed. *)
Variable Le : est -> est -> Prop.
Variable G : est -> Prop.
Hypothesis Le_refl : forall x, Le x x.
Hypothesis Le_trans : forall x y z, Le x y -> Le y z -> Le x z.
Hypothesis Le_g : forall x gl g, Le x (gl, set_g (snd x) g).
Hypothesis Le_gl : forall x gl, Le x (gl, snd x).
Hypothesis G_le : forall x y, Le x y -> G y -> G x.
(** if [m] ends in an allowed state, [m'] does the same *)
Definition bk {A} (m m' : ES A) : Prop := forall x a x', m x = Some (a, x') -> Le x x' /\ (G x' -> m' x = Some (a, x')).
Hypothesis bk_inc : forall k p, bk (inc k p) (inc' k p).
Lemma bk_ret {A} (a : A) : bk (eret a) (eret a).
Proof. intros x b x' E. inversion E; subst. auto. Qed.
Lemma bk_fail {A} (m : ES A) : bk efail m.
Proof. intros x b x' E. discriminate. Qed.
Lemma bk_lift {A} (o : option A) : bk (elift o) (elift o).
Proof. destruct o; [apply bk_ret|apply bk_fail]. Qed.
Lemma bk_bind {A B} (m m' : ES A) (f f' : A -> ES B) : bk m m' -> (forall a, bk (f a) (f' a)) -> bk (ebind m f) (ebind m' f').
Proof.
  intros Hm Hf x b x' E. apply ebind_some in E as (a & x1 & E1 & E2).
  destruct (Hm _ _ _ E1) as [L1 F1]. destruct (Hf _ _ _ _ E2) as [L2 F2]. split; [eapply Le_trans; eauto|].
  intros g. unfold ebind. rewrite F1 by (eapply G_le; eauto). auto.
Qed.
Lemma bk_fresh : bk fresh fresh.
Proof. intros [gl sh] i z E. split; [|auto]. cbn in E. inversion E; subst. exact (Le_g (gl, sh) gl _). Qed.
Lemma bk_sent k : bk (esentinel k) (esentinel k).
Proof.
  intros [gl sh] i z E. split; [|auto]. unfold esentinel in *. cbn [snd] in *. destruct (g_sent (sh_g sh) k) eqn:S; inversion E; subst; [auto|].
  exact (Le_g (gl, sh) gl _).
Qed.
Lemma bk_globals : bk eglobals eglobals.
Proof. intros x a x' E. inversion E; subst. auto. Qed.
Lemma bk_define f v : bk (edefine f v) (edefine f v).
Proof. intros [gl sh] a x' E. inversion E; subst. split; auto. exact (Le_gl (gl, sh) _). Qed.
Lemma bk_emap {A B} (f f' : A -> ES B) l : Forall (fun a => bk (f a) (f' a)) l -> bk (emap f l) (emap f' l).
Proof.
  induction 1 as [|a l Ha Hl IH]; cbn [emap]; [apply bk_ret|].
  apply bk_bind; auto. intros b. apply bk_bind; auto. intros bs. apply bk_ret.
Qed.
Lemma bk_deep {A} d (m m' : ES A) : bk m m' -> bk (deep lim d m) (deep lim d m').
Proof. unfold deep. destruct (lim d); auto. intros _. apply bk_fail. Qed.
Lemma bk_name fields g n : bk (ev_name fields g n) (ev_name fields g n).
Proof.
  unfold ev_name. destruct g.
  - apply bk_bind; [apply bk_globals|]. intros. apply bk_lift.
  - destruct (assoc n constants); [apply bk_ret|]. destruct (assoc n keywords); [|apply bk_lift].
    apply bk_bind; [apply bk_sent|]. intros. apply bk_ret.
Qed.
Lemma bk_op op v w : bk (ev_op op v w) (ev_op op v w).
Proof.
  unfold ev_op. destruct op; try apply bk_lift. destruct v; try apply bk_lift. destruct w; try apply bk_lift.
  destruct (most_specific _ _) as [[]|]; [|apply bk_fail].
  apply bk_bind; [apply bk_fresh|]. intros. apply bk_ret.
Qed.
Lemma bk_chain l : forall acc cur, bk (ev_chain acc cur l) (ev_chain acc cur l).
Proof.
  assert (AU : forall acc cur, bk (add_up acc cur) (add_up acc cur)).
  { intros [[s op]|] cur; [apply bk_op|apply bk_ret]. }
  induction l as [|[op w] l IH]; intros acc cur; cbn [ev_chain]; auto.
  destruct (is_priority op); apply bk_bind; auto. apply bk_lift.
Qed.
Lemma bk_keyword o ks : bk (ev_keyword o ks) (ev_keyword o ks).
Proof.
  induction ks as [|k ks IH]; cbn [ev_keyword]; [apply bk_ret|].
  apply bk_bind; [apply bk_sent|]. intros s. destruct (_ =? _); auto. apply bk_ret.
Qed.
Lemma bk_items (ev ev' : list pair_t -> expr -> ES value) its :
  Forall (fun p => forall fields, bk (ev fields (snd p)) (ev' fields (snd p))) its ->
  forall fields parent, bk (ev_items ev its fields parent) (ev_items ev' its fields parent).
Proof.
  induction 1 as [|[f e] its He Hits IH]; intros fields parent; [apply bk_ret|]. rewrite !ev_items_cons. cbn [snd] in He.
  destruct (kind_of_item f).
  - apply bk_bind; [apply bk_globals|]. intros g. destruct (assoc f g); [apply bk_fail|].
    apply bk_bind; auto. intros v. apply bk_bind; auto. apply bk_define.
  - destruct parent; [apply bk_fail|]. apply bk_bind; auto. intros []; auto; apply bk_fail.
  - destruct (mem_str _ _); [apply bk_fail|]. apply bk_bind; auto.
  - apply bk_fail.
Qed.
Lemma bk_ev : (forall a d fields, bk (ev_atom inc lim d fields a) (ev_atom inc' lim d fields a)) /\
               (forall e d fields, bk (ev_expr inc lim d fields e) (ev_expr inc' lim d fields e)).
Proof.
  apply ast_ind.
  - intros w d fields. apply bk_lift.
  - intros cs d fields. apply bk_lift.
  - intros g n d fields. apply bk_name.
  - intros g n sub IH d fields. rewrite !ev_dot. apply bk_bind; [apply bk_name|].
    intros v. destruct v; try apply bk_fail.
    + apply bk_bind; auto. intros. apply bk_lift.
    + apply bk_bind; auto. intros. apply bk_lift.
    + destruct sub; try apply bk_fail; destruct glob; try apply bk_fail; apply IH.
  - intros op a IH d fields. rewrite !ev_un. apply bk_bind; auto. intros. apply bk_lift.
  - intros es IH d fields. rewrite !ev_arr. apply bk_deep, bk_bind.
    + apply bk_emap. eapply Forall_impl; [|exact IH]. cbn. intros; auto.
    + intros vs. destruct (lub _); [|apply bk_fail]. apply bk_bind; [apply bk_fresh|]. intros. apply bk_ret.
  - intros es IH d fields. rewrite !ev_tup. apply bk_deep, bk_bind.
    + apply bk_emap. eapply Forall_impl; [|exact IH]. cbn. intros; auto.
    + intros vs. apply bk_bind; [apply bk_fresh|]. intros. apply bk_ret.
  - intros its IH d fields. rewrite !ev_obj. apply bk_deep, bk_bind.
    + apply bk_items. eapply Forall_impl; [|exact IH]. cbn. intros; auto.
    + intros r. apply bk_bind; [apply bk_fresh|]. intros. apply bk_ret.
  - intros e p IH IH2 d fields. rewrite !ev_inc. apply bk_deep, bk_bind; auto.
    intros v. destruct v; try apply bk_fail.
    + destruct p; [apply bk_fail|apply bk_inc].
    + apply bk_bind; [apply bk_keyword|]. intros [k|]; [|apply bk_fail].
      destruct p as [e2|]; [|apply bk_fail]. apply bk_bind; [apply IH2; auto|].
      intros v2. destruct v2; try apply bk_fail. apply bk_inc.
  - intros a l IHa IHl d fields. rewrite !ev_expr_Ex. apply bk_bind; auto. intros v.
    apply bk_bind; [|intros; apply bk_chain].
    apply bk_emap. eapply Forall_impl; [|exact IHl]. intros [op b] H. cbn [snd] in H.
    apply bk_bind; auto. intros. apply bk_ret.
Qed.
Lemma bk_doc items : bk (ev_doc inc lim items) (ev_doc inc' lim items).
Proof.
  unfold ev_doc. apply bk_bind.
  - apply bk_items. apply Forall_forall. intros p _ fields. apply bk_ev.
  - intros r. apply bk_bind; [apply bk_fresh|]. intros. apply bk_ret.
Qed.
Lemma bk_arr_doc es : bk (ev_arr_doc inc lim es) (ev_arr_doc inc' lim es).
Proof.
  unfold ev_arr_doc. apply bk_bind.
  - apply bk_emap. apply Forall_forall. intros p _. apply bk_ev.
  - intros vs. destruct (lub _); [|apply bk_fail]. apply bk_bind; [apply bk_fresh|]. intros. apply bk_ret.
Qed.
Lemma bk_tup_doc es : bk (ev_tup_doc inc lim es) (ev_tup_doc inc' lim es).
Proof.
  unfold ev_tup_doc. apply bk_bind.
  - apply bk_emap. apply Forall_forall. intros p _. apply bk_ev.
  - intros vs. apply bk_bind; [apply bk_fresh|]. intros. apply bk_ret.
Qed.
End Back.

