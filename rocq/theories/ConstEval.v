(** * ConstEval: writing constants in other ways: evaluation. *)
From Verif Require Export Constants EvalProofs.
Open Scope N_scope.
Definition eqm {A} (m m' : ES A) : Prop := forall x, m x = m' x.
Lemma eqm_refl {A} (m : ES A) : eqm m m. Proof. intros x. reflexivity. Qed.
Lemma eqm_bind {A B} (m m' : ES A) (f f' : A -> ES B) : eqm m m' -> (forall a, eqm (f a) (f' a)) -> eqm (ebind m f) (ebind m' f').
Proof. intros H K x. unfold ebind. rewrite H. destruct (m' x) as [[a y]|]; [apply K|reflexivity]. Qed.
Lemma eqm_bind_l {A B} (m m' : ES A) (f : A -> ES B) : eqm m m' -> eqm (ebind m f) (ebind m' f).
Proof. intros H. apply eqm_bind; [exact H|]. intros a. apply eqm_refl. Qed.
Lemma eqm_emap {A B} (f : A -> ES B) l1 a a' l2 : eqm (f a) (f a') -> eqm (emap f (l1 ++ a :: l2)) (emap f (l1 ++ a' :: l2)).
Proof.
  intros H. induction l1 as [|b l1 IH]; cbn [app emap].
  - apply eqm_bind_l. exact H.
  - apply eqm_bind; [apply eqm_refl|]. intros y. apply eqm_bind_l. exact IH.
Qed.
Lemma eqm_items ev l1 f e e' l2 : (forall fields, eqm (ev fields e) (ev fields e')) -> forall fields par,
  eqm (ev_items ev (l1 ++ (f, e) :: l2) fields par) (ev_items ev (l1 ++ (f, e') :: l2) fields par).
Proof.
  intros H. induction l1 as [|[h b] l1 IH]; intros fields par; cbn [app]; rewrite !ev_items_cons.
  - destruct (kind_of_item f); [| | |apply eqm_refl].
    + apply eqm_bind; [apply eqm_refl|]. intros g. destruct (assoc f g); [apply eqm_refl|]. apply eqm_bind_l. apply H.
    + destruct par; [apply eqm_refl|]. apply eqm_bind_l. apply H.
    + destruct (mem_str _ _); [apply eqm_refl|]. apply eqm_bind_l. apply H.
  - destruct (kind_of_item h); [| | |apply eqm_refl].
    + apply eqm_bind; [apply eqm_refl|]. intros g. destruct (assoc h g); [apply eqm_refl|]. apply eqm_bind; [apply eqm_refl|]. intros v.
      apply eqm_bind; [apply eqm_refl|]. intros u. apply IH.
    + destruct par; [apply eqm_refl|]. apply eqm_bind; [apply eqm_refl|]. intros []; try apply eqm_refl. apply IH.
    + destruct (mem_str _ _); [apply eqm_refl|]. apply eqm_bind; [apply eqm_refl|]. intros v. apply IH.
Qed.
Lemma eqm_deep {A} lim d (m m' : ES A) : eqm m m' -> eqm (deep lim d m) (deep lim d m').
Proof. intros H. unfold deep. destruct (lim d); [exact H|apply eqm_refl]. Qed.

Section E.
Variable inc : inc_ty -> str -> ES value.
Variable lim : N -> bool.
Notation eva d fields a := (ev_atom inc lim d fields a).
Notation eve d fields e := (ev_expr inc lim d fields e).
Lemma ev_constant a : forall v, constant a = Some v -> forall d fields x, eva d fields a x = Some (v, x).
Proof.
  induction a as [w|cs|g n|g n sub IH|op a IH|es|es|its|e p]; intros v C d fields x; cbn [constant] in C; try discriminate.
  - cbn [ev_atom]. rewrite C. reflexivity.
  - cbn [ev_atom]. rewrite C. reflexivity.
  - destruct g; [discriminate|]. cbn [ev_atom ev_name]. rewrite C. reflexivity.
  - destruct (constant a) as [w|] eqn:E; [|discriminate]. rewrite ev_un. unfold ebind. rewrite (IH w eq_refl). rewrite C. reflexivity.
Qed.
Lemma constant_name n v : assoc n constants = Some v -> match v with VNull | VBool _ => True | _ => False end.
Proof. cbn. repeat match goal with |- context [if ?b then _ else _] => destruct b end; intros E; inversion E; exact I. Qed.
Lemma number_kind w v : num_value w = Some v -> match v with VInt _ | VFrac _ => True | _ => False end.
Proof.
  unfold num_value. destruct (double_under w); [discriminate|]. destruct (split_point w) as [a [b|]].
  - destruct (existsb _ b); [discriminate|]. destruct (digits a ++ digits b); intros E; inversion E; exact I.
  - destruct (digits a); intros E; inversion E; exact I.
Qed.
Lemma sign_kind op v w : un_value op v = Some w -> match w with VInt _ | VFrac _ => True | _ => False end.
Proof. destruct v, op; intros E; inversion E; exact I. Qed.
Lemma word_values n m v : assoc n constants = Some v -> assoc m constants = Some v -> n = m.
Proof.
  unfold constants. cbn [assoc]. repeat match goal with |- context [str_eqb ?a ?b] => destruct (str_eqb_spec a b) end; intros E1 E2; inversion E1; subst; inversion E2; subst; reflexivity.
Qed.
(** which of the constants may stand after a dot behind an Obj *)
Definition word (a : atom) : option str := match a with AVar false n => Some n | _ => None end.
Lemma constant_word a c v : constant a = Some v -> constant c = Some v -> word a = word c.
Proof.
  assert (K : forall a v, constant a = Some v -> match v with VNull | VBool _ => exists n, a = AVar false n /\ assoc n constants = Some v | _ => word a = None end).
  { clear. intros a v C. destruct a as [w|cs|g n|g n sub|op a|es|es|its|e p]; cbn [constant] in C; try discriminate.
    - apply number_kind in C. destruct v; try contradiction; reflexivity.
    - destruct (str_value cs); [|discriminate]. injection C as <-. reflexivity.
    - destruct g; [discriminate|]. pose proof (constant_name n v C). destruct v; try contradiction; eauto.
    - destruct (constant a); [|discriminate]. apply sign_kind in C. destruct v; try contradiction; reflexivity. }
  intros A B. pose proof (K _ _ A) as KA. pose proof (K _ _ B) as KB. destruct v; try congruence;
    destruct KA as (n & -> & A'), KB as (m & -> & B'); rewrite (word_values _ _ _ A' B'); reflexivity.
Qed.
Definition by_name (a : atom) : bool := match a with AVar false _ | ADot false _ _ => true | _ => false end.
Lemma rewrite_by_name a a' : rewrite_atom a a' -> by_name a = by_name a'.
Proof.
  intros H. destruct H; try reflexivity. pose proof (constant_word _ _ _ H H0) as W.
  destruct a as [| |[]| | | | | |]; try discriminate H; destruct c as [| |[]| | | | | |]; try discriminate H0; try reflexivity; discriminate W.
Qed.
Lemma ev_dot' d fields g n a : eva d fields (ADot g n a) =
  ebind (ev_name fields g n) (fun v => match v with
    | VArr w => ebind (eva (d + 1) fields a) (fun i => elift (ev_index (arr_values w) i))
    | VTup w => ebind (eva (d + 1) fields a) (fun i => elift (ev_index (tup_values w) i))
    | VObj o => if by_name a then eva (d + 1) (obj_pairs o) a else efail
    | _ => efail end).
Proof. rewrite ev_dot. destruct a as [| |[]|[]| | | | |]; reflexivity. Qed.

(** *** Chains *)
Notation operands d fields l := (emap (fun p => match p with (op, b) => ebind (eva d fields b) (fun w => eret (op, w)) end) l).
Lemma emap_app {A B} (f : A -> ES B) l1 l2 : eqm (emap f (l1 ++ l2)) (ebind (emap f l1) (fun vs => ebind (emap f l2) (fun ws => eret (vs ++ ws)))).
Proof.
  induction l1 as [|a l1 IH]; intros x; cbn [app emap].
  - unfold ebind, eret. destruct (emap f l2 x) as [[ws y]|]; reflexivity.
  - unfold ebind, eret. destruct (f a x) as [[v y]|]; [|reflexivity]. rewrite IH. unfold ebind, eret.
    destruct (emap f l1 y) as [[vs z]|]; [|reflexivity]. destruct (emap f l2 z) as [[ws u]|]; reflexivity.
Qed.
Lemma chain_app l1 : forall acc cur op v l2, is_priority op = false ->
  eqm (ev_chain acc cur (l1 ++ (op, v) :: l2)) (ebind (ev_chain acc cur l1) (fun s => ev_chain (Some (s, op)) v l2)).
Proof.
  induction l1 as [|[o w] l1 IH]; intros acc cur op v l2 P x; cbn [app ev_chain].
  - rewrite P. reflexivity.
  - destruct (is_priority o); unfold ebind.
    + destruct (op_value o cur w) as [p|]; cbn [elift eret efail]; [|reflexivity]. apply (IH acc p op v l2 P).
    + destruct (add_up acc cur x) as [[s y]|]; [|reflexivity]. apply (IH (Some (s, o)) w op v l2 P).
Qed.
Lemma computes_op a op b c : computes a op b c -> exists v w u, constant a = Some v /\ constant b = Some w /\ constant c = Some u /\
  op_value op v w = Some u /\ eqm (ev_op op v w) (eret u).
Proof.
  intros (v & w & u & A & B & O & C). exists v, w, u. repeat split; auto. intros x. unfold ev_op.
  destruct op; try (rewrite O; reflexivity). destruct v; try (rewrite O; reflexivity). destruct w; try (rewrite O; reflexivity). discriminate O.
Qed.
Lemma sum_chain op v w u vs : is_priority op = false -> eqm (ev_op op v w) (eret u) ->
  (match vs with (o, _) :: _ => is_priority o = false | [] => True end) -> eqm (ev_chain None v ((op, w) :: vs)) (ev_chain None u vs).
Proof.
  intros P O N x. cbn [ev_chain]. rewrite P. cbn [add_up]. unfold ebind, eret at 1. destruct vs as [|[o z] vs]; cbn [ev_chain].
  - cbn [add_up]. apply O.
  - rewrite N. cbn [add_up]. unfold ebind. rewrite (O x). reflexivity.
Qed.
Lemma operands_head d fields l x vs y : operands d fields l x = Some (vs, y) -> no_product l -> match vs with (o, _) :: _ => is_priority o = false | [] => True end.
Proof.
  destruct l as [|[op b] l]; cbn [emap no_product]; intros E N.
  - injection E as <- _. exact I.
  - apply ebind_some in E as (p & z & E & E'). apply ebind_some in E as (w & z' & E & E2). injection E2 as <- <-.
    apply ebind_some in E' as (ws & z2 & _ & E'). injection E' as <- _. exact N.
Qed.
Scheme wa_ind := Induction for rewrite_atom Sort Prop with we_ind := Induction for rewrite Sort Prop.
Combined Scheme rewrite_both from wa_ind, we_ind.
Lemma rewrite_eval : (forall a a', rewrite_atom a a' -> forall d fields, eqm (eva d fields a) (eva d fields a')) /\
  (forall e e', rewrite e e' -> forall d fields, eqm (eve d fields e) (eve d fields e')).
Proof.
  apply (rewrite_both (fun a a' _ => forall d fields, eqm (eva d fields a) (eva d fields a')) (fun e e' _ => forall d fields, eqm (eve d fields e) (eve d fields e'))).
  - intros a c v A C d fields x. rewrite (ev_constant a v A), (ev_constant c v C). reflexivity.
  - intros op a a' R IH d fields. rewrite !ev_un. apply eqm_bind_l. apply IH.
  - intros g n a a' R IH d fields. rewrite !ev_dot'. apply eqm_bind; [apply eqm_refl|]. intros v. rewrite (rewrite_by_name a a' R).
    destruct v; try apply eqm_refl; try (apply eqm_bind_l; apply IH). destruct (by_name a'); [apply IH|apply eqm_refl].
  - intros l1 e e' l2 R IH d fields. rewrite !ev_arr. apply eqm_deep. apply eqm_bind_l. apply eqm_emap. apply IH.
  - intros l1 e e' l2 R IH d fields. rewrite !ev_tup. apply eqm_deep. apply eqm_bind_l. apply eqm_emap. apply IH.
  - intros l1 f e e' l2 R IH d fields. rewrite !ev_obj. apply eqm_deep. apply eqm_bind_l. apply eqm_items. intros fl. apply IH.
  - intros e e' p R IH d fields. rewrite !ev_inc. apply eqm_deep. apply eqm_bind_l. apply IH.
  - intros e p p' R IH d fields. rewrite !ev_inc. apply eqm_deep. apply eqm_bind; [apply eqm_refl|]. intros v. destruct v; try apply eqm_refl.
    apply eqm_bind; [apply eqm_refl|]. intros [k|]; [|apply eqm_refl]. apply eqm_bind_l. apply IH.
  - intros a a' l R IH d fields. rewrite !ev_expr_Ex. apply eqm_bind_l. apply IH.
  - intros a l1 op b b' l2 R IH d fields. rewrite !ev_expr_Ex. apply eqm_bind; [apply eqm_refl|]. intros v. apply eqm_bind_l. apply eqm_emap. apply eqm_bind_l. apply IH.
  - intros a op b c l P C d fields x. destruct (computes_op _ _ _ _ C) as (v & w & u & A & B & Cc & O & _). rewrite !ev_expr_Ex. unfold ebind at 1. rewrite (ev_constant a v A).
    unfold ebind at 3. rewrite (ev_constant c u Cc). cbn [emap]. unfold ebind. rewrite (ev_constant b w B). cbn [eret].
    destruct (operands d fields l x) as [[vs y]|] eqn:E; unfold ebind in E; rewrite E; [|reflexivity]. cbn [eret ev_chain]. rewrite P. unfold ebind. rewrite O. reflexivity.
  - intros z l1 op1 a op b c l P1 P C d fields x. destruct (computes_op _ _ _ _ C) as (v & w & u & A & B & Cc & O & _). rewrite !ev_expr_Ex.
    unfold ebind at 1. unfold ebind at 3. destruct (eva d fields z x) as [[v0 y]|]; [|reflexivity]. unfold ebind at 1. unfold ebind at 2. rewrite !emap_app. unfold ebind at 1. unfold ebind at 4.
    destruct (operands d fields l1 y) as [[vs y1]|]; [|reflexivity]. cbn [emap]. unfold ebind. rewrite (ev_constant a v A), (ev_constant c u Cc). cbn [eret]. rewrite (ev_constant b w B). cbn [eret].
    destruct (operands d fields l y1) as [[ws y2]|] eqn:E; unfold ebind in E; rewrite E; [|reflexivity]. cbn [eret].
    rewrite !chain_app by exact P1. unfold ebind. destruct (ev_chain None v0 vs y2) as [[s y3]|]; [|reflexivity]. cbn [ev_chain]. rewrite P. unfold ebind. rewrite O. reflexivity.
  - intros a op b c l P C N d fields x. destruct (computes_op _ _ _ _ C) as (v & w & u & A & B & Cc & O & Oe). rewrite !ev_expr_Ex. unfold ebind at 1. rewrite (ev_constant a v A).
    unfold ebind at 3. rewrite (ev_constant c u Cc). cbn [emap]. unfold ebind. rewrite (ev_constant b w B). cbn [eret].
    destruct (operands d fields l x) as [[vs y]|] eqn:E; pose proof E as E'; unfold ebind in E; rewrite E; [|reflexivity]. cbn [eret].
    apply (sum_chain op v w u vs P Oe). eapply operands_head; eauto.
Qed.
Lemma same_doc its its' : same_items its its' -> eqm (ev_doc inc lim its) (ev_doc inc lim its').
Proof.
  induction 1 as [its its' R|its|its its' _ IH|a b c _ IH1 _ IH2]; [|apply eqm_refl|intros x; symmetry; apply IH|intros x; rewrite IH1; apply IH2].
  destruct R as [l1 f e e' l2 R]. unfold ev_doc. apply eqm_bind_l. apply eqm_items. intros fields. apply (proj2 rewrite_eval). exact R.
Qed.
End E.
Section F.
Context `{U : Unicode}.
Lemma same_ev inc c c' : same_contents c c' -> eqm (ev_contents inc c) (ev_contents inc c').
Proof.
  induction 1 as [c c' R|c|c c' _ IH|a b c _ IH1 _ IH2]; [|apply eqm_refl|intros x; symmetry; apply IH|intros x; rewrite IH1; apply IH2].
  destruct R as [t|its its' R|l1 e e' l2 R|l1 e e' l2 R]; cbn [ev_contents]; [apply eqm_refl| | |]; apply eqm_bind_l.
  - apply same_doc. apply rst_step. exact R.
  - unfold ev_arr_doc. apply eqm_bind_l. apply eqm_emap. apply (proj2 (rewrite_eval inc limit64)). exact R.
  - unfold ev_tup_doc. apply eqm_bind_l. apply eqm_emap. apply (proj2 (rewrite_eval inc limit64)). exact R.
Qed.
Lemma contents_kind c c' : same_contents c c' -> kind_in c = kind_in c'.
Proof. induction 1 as [c c' R|c|c c' _ IH|a b c _ IH1 _ IH2]; [destruct R; reflexivity|reflexivity|congruence|congruence]. Qed.
End F.
