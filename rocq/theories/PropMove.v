(** * PropMove: a literal and a file with the same contents (C61). *)
From Verif Require Export PropRefactor.
From Verif Require Import PropNames PropInclude Render Refactor.
From Coq Require String.
Import String.StringSyntax.
Open Scope N_scope.

Section P.
Context `{U : Unicode}.

(** ... and no file is loaded. *)
Definition quiet (x y : est) : Prop := sh_vals (snd y) = sh_vals (snd x) /\ (g_ok (sh_g (snd x)) -> g_ok (sh_g (snd y))).
Lemma quiet_sent x k o y : esentinel k x = Some (o, y) -> quiet x y.
Proof.
  destruct x as [gl sh]. unfold esentinel. cbn [snd]. destruct (g_sent (sh_g sh) k) eqn:S; intros E; inversion E; subst.
  - split; auto.
  - split; [reflexivity|]. cbn. intros G. apply ok_sent; auto.
Qed.
Lemma quiet_items lim d its fields par x r y : ev_items (ev_expr nofile lim d) its fields par x = Some (r, y) -> quiet x y.
Proof.
  apply (keeps_all_items nofile lim quiet).
  - split; auto.
  - intros a b c [A1 A2] [B1 B2]. split; [congruence|auto].
  - intros [gl sh] i z E. injection E as <- <-. split; [reflexivity|]. cbn. apply ok_bump.
  - intros. eapply quiet_sent; eauto.
  - intros a b f v _ [A1 A2]. split; auto.
  - intros k p a v b E. discriminate.
Qed.

(** ** Specification *)
(** A value that needs nothing around it: no includes, reads no name from outside, defines no global. *)
Definition self_contained (a : atom) : Prop := plain_atom a = true /\ reads_atom a = [] /\ defines_atom a = [].
(** [t] is the text of a file which, read as [k], has the contents of the literal [a]. *)
Inductive in_file : inc_ty -> atom -> str -> Prop :=
| in_obj its t : r_doc its t -> in_file IObj (AObj its) t
| in_arr es t : r_list es t -> in_file IArr (AArr es) t
| in_tup es t : r_list es t -> in_file ITup (ATup es) t
| in_str cs t : str_value cs = Some t -> in_file IStr (AStr cs) t.
(** [e] is an include of the path [p] as [k]: <"p"> or <Kw "p"> *)
Inductive names_file : inc_ty -> atom -> str -> Prop :=
| nf_short cs p : str_value cs = Some p -> names_file IObj (AInc (Ex (AStr cs) []) None) p
| nf_long k kw cs p : assoc kw keywords = Some k -> str_value cs = Some p ->
    names_file k (AInc (Ex (AVar false kw) []) (Some (Ex (AStr cs) []))) p.

(** ** The contents of the file *)
Definition contents (k : inc_ty) (a : atom) : ES value :=
  match k, a with
  | IObj, AObj its => do o <- ev_doc nofile limit64 its;; eret (VObj o)
  | IArr, AArr es => do o <- ev_arr_doc nofile limit64 es;; eret (VArr o)
  | ITup, ATup es => do o <- ev_tup_doc nofile limit64 es;; eret (VTup o)
  | IStr, AStr cs => elift (option_map VStr (str_value cs))
  | _, _ => efail
  end.
Lemma contents_file k a t sh v gl sh' : in_file k a t -> contents k a ([], sh) = Some (v, (gl, sh')) -> file_value nofile k t sh v sh'.
Proof.
  intros [its t' R|es t' R|es t' R|cs t' R] E; cbn [contents] in E; try (apply ebind_some in E as (o & y & E & E'); inversion E'; subst); try (econstructor; eauto; fail).
  rewrite R in E. cbn in E. inversion E; subst. constructor.
Qed.
Lemma none_in {A} (l : list A) x : l = [] -> In x l -> False. Proof. intros -> []. Qed.
Lemma no_inv l l' : inv (fun _ => False) (fun _ => False) (fun _ _ => True) l l'.
Proof. split; [intros n v []|]. split; [intros n []|exact I]. Qed.
Lemma flat_none {A B} (f : A -> list B) l a : flat_map f l = [] -> In a l -> f a = [].
Proof. intros E Ia. destruct (f a) as [|b r] eqn:F; [reflexivity|]. exfalso. apply (none_in _ b E). apply in_flat_map. exists a. rewrite F. cbn. auto. Qed.
(** What the literal is in the document, the contents are in the file. *)
Lemma literal_contents inc k a t fields x v y gs : self_contained a -> in_file k a t ->
  ev_atom inc limit64 1 fields a x = Some (v, y) -> exists v' gl sh', contents k a gs = Some (v', (gl, sh')) /\ same v v'.
Proof.
  assert (Ls : forall es d, forallb Refactor.plain es = true -> flat_map reads es = [] -> flat_map defines es = [] -> ge64 d 1 ->
    rel (fun _ => False) (fun _ => False) (fun _ _ => True) (fun vs ws => map erase vs = map erase ws) (emap (ev_expr inc limit64 d fields) es) (emap (ev_expr nofile limit64 1 []) es)).
  { intros es d P Rd Df L. rewrite <- (map_id es) at 1. rewrite <- (map_id es) at 2. apply rel_emap. rewrite forallb_forall in P. apply Forall_forall. intros e Ie.
    apply rel_expr with (ge := ge64); auto using ge64_succ; try exact lim64_down.
    - intros n X _. apply (none_in _ n (flat_none _ _ _ Rd Ie) X).
    - intros n X. apply (none_in _ n (flat_none _ _ _ Df Ie) X).
    - intros n w X. exfalso. apply (none_in _ n (flat_none _ _ _ Rd Ie) X). }
  intros Sc If. revert Sc. destruct If as [its t' R|es t' R|es t' R|cs t' R]; intros (P & Rd & Df) E; cbn [contents].
  - rewrite ev_obj in E. unfold deep in E. change (limit64 (1 + 1)) with true in E. cbn iota in E. apply ebind_some in E as (r & x1 & E1 & E2).
    apply fresh_ret in E2. destruct (rel_all_items inc nofile limit64 ge64 (fun _ => False) (fun _ => False) its (1 + 1) 1 [] [] None None ge64_succ lim64_down) with (x := x) (y := gs) (a := r) (x' := x1)
      as (r' & gs' & E1' & (new & new' & N1 & N2 & N3 & N4) & _); auto.
    + unfold item_plain. cbn [plain_atom] in P. rewrite forallb_forall in *. intros [f e] X. apply (P _ X).
    + unfold ge64. lia.
    + intros n X G. apply (none_in _ n Rd). cbn [reads_atom]. apply filter_In. split; auto. unfold item_reads in X. apply in_flat_map in X as ([f e] & X & Y).
      apply in_flat_map. exists (f, e). auto.
    + intros n X. apply (none_in _ n Df). cbn [defines_atom]. unfold item_defines in X. apply in_flat_map in X as ([f e] & X & Y).
      apply in_flat_map. exists (f, e). auto.
    + intros n w _ A. discriminate.
    + apply no_inv.
    + destruct gs' as [gl sh']. eexists _, _, _. unfold ev_doc, ebind, pair_t in *. rewrite E1'. split; [reflexivity|].
      rewrite E2. unfold same. cbn [erase erase_obj]. cbn [app] in N1, N2. subst new new'. do 2 f_equal; [exact N3|exact N4].
  - rewrite ev_arr in E. unfold deep in E. change (limit64 (1 + 1)) with true in E. cbn iota in E. apply ebind_some in E as (vs & x1 & E1 & E2).
    destruct (Ls es (1 + 1) P Rd Df ltac:(unfold ge64; lia) x gs vs x1 (no_inv _ _) E1) as (ws & [gl sh'] & E1' & Q & _).
    rewrite (same_types _ _ Q) in E2. destruct (lub _) as [u|] eqn:Lu; [|discriminate]. apply fresh_ret in E2.
    unfold ev_arr_doc, ebind. rewrite E1'. rewrite Lu. eexists _, _, _. split; [reflexivity|]. rewrite E2. unfold same. cbn. congruence.
  - rewrite ev_tup in E. unfold deep in E. change (limit64 (1 + 1)) with true in E. cbn iota in E. apply ebind_some in E as (vs & x1 & E1 & E2).
    destruct (Ls es (1 + 1) P Rd Df ltac:(unfold ge64; lia) x gs vs x1 (no_inv _ _) E1) as (ws & [gl sh'] & E1' & Q & _).
    apply fresh_ret in E2. unfold ev_tup_doc, ebind. rewrite E1'. eexists _, _, _. split; [reflexivity|]. rewrite E2. unfold same. cbn. rewrite (same_types _ _ Q). congruence.
  - change (elift (option_map VStr (str_value cs)) x = Some (v, y)) in E. rewrite R in *. cbn in *. inversion E; subst. destruct gs as [gl sh]. eexists _, _, _. split; reflexivity.
Qed.

(** ** The include *)
Lemma sent_keeps k0 x o y k i : esentinel k0 x = Some (o, y) -> g_sent (sh_g (snd x)) k = Some i -> g_sent (sh_g (snd y)) k = Some i.
Proof.
  destruct x as [gl sh]. unfold esentinel. cbn [snd]. destruct (g_sent (sh_g sh) k0) eqn:S; intros E; inversion E; subst; auto. intros H. cbn.
  pose proof (later_sent _ _ k0 (g_later_refl (sh_g sh)) S) as [_ L]. specialize (L k). rewrite H in L. exact L.
Qed.
Lemma keyword_hit k i ks : In k ks -> forall x, g_ok (sh_g (snd x)) -> g_sent (sh_g (snd x)) k = Some i ->
  exists y, ev_keyword (obj_empty i) ks x = Some (Some k, y) /\ fst y = fst x /\ quiet x y.
Proof.
  induction ks as [|k0 ks IH]; intros Ik x G Hk; [destruct Ik|]. cbn [ev_keyword]. destruct (sentinel_some k0 x) as (j & y & S & Sg & Fy).
  unfold ebind. rewrite S. pose proof (quiet_sent _ _ _ _ S) as Q. pose proof (sent_keeps _ _ _ _ _ _ S Hk) as Hk'.
  pose proof (proj2 Q G) as G'. change (obj_id (obj_empty i)) with i. change (obj_id (obj_empty j)) with j.
  destruct (N.eqb_spec i j) as [<-|Ne].
  - assert (k = k0) as -> by (eapply (proj1 (proj2 G')); eauto). exists y. auto.
  - destruct Ik as [->|Ik]; [congruence|]. destruct (IH Ik y G' Hk') as (z & Ez & Fz & Qz). exists z. split; [exact Ez|]. split; [congruence|].
    destruct Q as [Q1 Q2], Qz as [Z1 Z2]. split; [congruence|auto].
Qed.
Lemma include_runs inc lim k e p fields x : lim (1 + 1) = true -> names_file k e p -> g_ok (sh_g (snd x)) ->
  exists y, fst y = fst x /\ quiet x y /\ ev_expr inc lim 1 fields (Ex e []) x = inc k p y.
Proof.
  intros Hl.
  assert (Str : forall cs q z, str_value cs = Some q -> ev_expr inc lim (1 + 1) fields (Ex (AStr cs) []) z = Some (VStr q, z)).
  { intros cs q z Hs. rewrite ev_atom_expr. change (elift (option_map VStr (str_value cs)) z = Some (VStr q, z)). rewrite Hs. reflexivity. }
  intros [cs q Hs|k' kw cs q K Hs] G; rewrite ev_atom_expr, ev_inc; unfold deep; rewrite Hl; cbn iota; unfold ebind at 1.
  - rewrite (Str _ _ _ Hs). exists x. split; [reflexivity|]. split; [split; auto|]. reflexivity.
  - rewrite (ev_kw _ _ _ _ kw k' _ K). unfold ebind at 1. destruct (sentinel_some k' x) as (i & y & S & Sg & Fy). rewrite S. unfold eret at 1.
    pose proof (quiet_sent _ _ _ _ S) as Q. destruct (keyword_hit k' i [IObj; IStr; IArr; ITup]) with (x := y) as (z & Ez & Fz & Qz); [destruct k'; cbn; auto|apply Q; auto|exact Sg|].
    exists z. split; [congruence|]. split; [destruct Q as [Q1 Q2], Qz as [Z1 Z2]; split; [congruence|auto]|].
    unfold ebind at 1. rewrite Ez. unfold ebind. rewrite (Str _ _ _ Hs). reflexivity.
Qed.
Lemma inc_ty_dec (a b : inc_ty) : {a = b} + {a <> b}. Proof. decide equality. Defined.
(** The meaning of includes, as far as it is needed: [p] as [k], once. *)
Definition inc_one (k : inc_ty) (p full : str) (a : atom) : inc_ty -> str -> ES value := fun k' p' x =>
  if inc_ty_dec k k' then if str_eqb p p' then
    match assoc full (sh_vals (snd x)), contents k a ([], snd x) with
    | None, Some (v, (gl, sh')) => Some (v, (fst x, mksh ((full, v) :: sh_vals sh') [] [] (sh_g sh')))
    | _, _ => None
    end else None else None.
Lemma inc_one_sound fs chain file k p full a t i fe : canon fs (target file p) = Some full -> ~ In full chain ->
  fs_entry fs (target file p) = Some (i, fe) -> fe_read fe = inl t -> in_file k a t ->
  forall k' p' x w y, inc_one k p full a k' p' x = Some (w, y) -> includes fs chain file k' p' x w y.
Proof.
  intros C NI En Rd If k' p' [gl sh] w y E. unfold inc_one in E. destruct (inc_ty_dec k k') as [<-|]; [|discriminate]. destruct (str_eqb_spec p p') as [<-|]; [|discriminate].
  cbn [fst snd] in E. destruct (assoc full (sh_vals sh)) eqn:A; [discriminate|]. destruct (contents k a ([], sh)) as [[v [gl' sh']]|] eqn:Ec; [|discriminate].
  inversion E; subst. eapply inc_first with (inc := nofile) (sh0 := sh) (sh1 := sh'); eauto.
  - intros k' p' x w' y' _ X. discriminate.
  - split; reflexivity.
  - eapply contents_file; eauto.
  - split; reflexivity.
Qed.

(** ** One item for another *)
Lemma stores_same h v v' y y' r x r2 x2 : stores h v y r x r2 x2 -> same v v' -> (forall n, assoc n (fst y) = assoc n (fst y')) ->
  exists r2' x2', stores h v' y' r x r2' x2' /\ erase_pairs (fst r2) = erase_pairs (fst r2') /\ option_map erase_obj (snd r2) = option_map erase_obj (snd r2') /\
    (forall n w, assoc n (fst x2) = Some w -> exists w', assoc n (fst x2') = Some w' /\ same w w') /\
    (forall n, assoc n (fst x2) = None -> assoc n (fst x2') = None).
Proof.
  intros St Sv Hg. unfold stores in *. destruct (kind_of_item h).
  - destruct St as (A & -> & ->). eexists _, _. split; [split; [exact A|]; split; reflexivity|]. split; [reflexivity|]. split; [reflexivity|]. cbn [fst assoc]. split.
    + intros n w B. destruct (str_eqb h n); [injection B as <-; eauto|]. rewrite <- Hg. exists w. split; [exact B|reflexivity].
    + intros n B. destruct (str_eqb h n); [discriminate|]. rewrite <- Hg. exact B.
  - destruct St as (A & o & -> & -> & ->). apply same_obj in Sv as (p & -> & _ & Eo). eexists _, _. split; [split; [exact A|]; exists p; auto|].
    split; [reflexivity|]. split; [cbn; congruence|]. split; [|intros n B; rewrite <- Hg; exact B]. intros n w B. exists w. split; [rewrite <- Hg; exact B|reflexivity].
  - destruct St as (A & -> & ->). eexists _, _. split; [split; [exact A|]; split; reflexivity|]. cbn [fst snd]. split; [rewrite !erase_pairs_app; cbn; unfold same in Sv; congruence|].
    split; [reflexivity|]. split; [|intros n B; rewrite <- Hg; exact B]. intros n w B. exists w. split; [rewrite <- Hg; exact B|reflexivity].
  - destruct St.
Qed.
Lemma exchange inc inc' lim h e e' its1 its3 x0 r y : item_plain its1 = true -> item_plain its3 = true ->
  (forall fields x v y, quiet x0 x -> ev_expr inc lim 1 fields e x = Some (v, y) ->
     exists v' y', ev_expr inc' lim 1 fields e' x = Some (v', y') /\ same v v' /\ forall n, assoc n (fst y) = assoc n (fst y')) ->
  ev_items (ev_expr inc lim 1) (its1 ++ [(h, e)] ++ its3) [] None x0 = Some (r, y) ->
  exists r' y', ev_items (ev_expr inc' lim 1) (its1 ++ [(h, e')] ++ its3) [] None x0 = Some (r', y') /\
    erase_pairs (fst r) = erase_pairs (fst r') /\ option_map erase_obj (snd r) = option_map erase_obj (snd r').
Proof.
  intros P1 P3 He E. rewrite items_app in E. apply ebind_some in E as (r1 & x1 & E1 & E).
  rewrite items_app in E. apply ebind_some in E as (r2 & x2 & E2 & E3). apply one_item in E2 as (v & z & Ev & St).
  assert (Q : quiet x0 x1) by (rewrite (plain_items_inc inc nofile lim 1 its1 P1) in E1; eapply quiet_items; eauto).
  destruct (He _ _ _ _ Q Ev) as (v' & z' & Ev' & Sv & Hg). destruct (stores_same _ _ _ _ _ _ _ _ _ St Sv Hg) as (r2' & x2' & St' & Er & Ep & G1 & G2).
  destruct (rel_all_items inc inc' lim eq (fun _ => True) (fun _ => True) its3 1 1 (fst r2) (fst r2') (snd r2) (snd r2')
    ltac:(intros; subst; reflexivity) ltac:(intros; subst; auto) P3 eq_refl (fun _ _ _ => I) (fun _ _ => I) (finds_erase _ _ _ Er)) with (x := x2) (y := x2') (a := r) (x' := y)
    as (r' & y' & E3' & (new & new' & N1 & N2 & N3 & N4) & _); auto.
  - intros f _ X. rewrite <- erase_pairs_names, Er, erase_pairs_names. exact X.
  - split; [intros n w _; apply G1|]. split; [intros n _; apply G2|exact I].
  - exists r', y'. split; [|split; [rewrite N1, N2, !erase_pairs_app; congruence|exact N4]].
    rewrite items_app. unfold ebind. rewrite <- (plain_items_inc inc inc' lim 1 its1 P1). rewrite E1. rewrite items_app. unfold ebind.
    rewrite (proj2 (one_item inc' lim h e' r1 x1 r2' x2')); [exact E3'|]. eauto.
Qed.
Lemma doc_exchange inc inc' lim items items' x o y :
  (forall r z, ev_items (ev_expr inc lim 1) items [] None x = Some (r, z) ->
     exists r' z', ev_items (ev_expr inc' lim 1) items' [] None x = Some (r', z') /\
       erase_pairs (fst r) = erase_pairs (fst r') /\ option_map erase_obj (snd r) = option_map erase_obj (snd r')) ->
  ev_doc inc lim items x = Some (o, y) -> exists o' y', ev_doc inc' lim items' x = Some (o', y') /\ alike o o'.
Proof.
  intros H E. unfold ev_doc in E. apply ebind_some in E as (r & z & E & E'). apply fresh_ret in E'. subst o. destruct (H _ _ E) as (r' & [gl sh] & E1 & A & B).
  eexists _, _. split; [unfold ev_doc, ebind; rewrite E1; reflexivity|]. apply alike_pairs; [exact A|exact B].
Qed.

(** ** C61 *)
Lemma moved fs chain file g its1 h a its3 k e p t full i fe text text' o :
  r_doc (its1 ++ [(h, Ex a [])] ++ its3) text -> r_doc (its1 ++ [(h, Ex e [])] ++ its3) text' ->
  self_contained a -> in_file k a t -> names_file k e p -> item_plain its1 = true -> item_plain its3 = true ->
  fs_entry fs (target file p) = Some (i, fe) -> fe_canon fe = Some full -> fe_read fe = inl t -> ~ In full chain -> g_ok g ->
  loads fs chain file g text o -> exists o', loads fs chain file g text' o' /\ alike o o'.
Proof.
  intros R R' Sc If Nf P1 P3 En Fc Rd NI G (d & inc & sh0 & y & Rd0 & Hi & [S1 S2] & E).
  assert (d = its1 ++ [(h, Ex a [])] ++ its3) as -> by (eapply doc_unique; eauto).
  assert (C : canon fs (target file p) = Some full) by (unfold canon; rewrite En; exact Fc).
  destruct (doc_exchange inc (inc_one k p full a) limit64 (its1 ++ [(h, Ex a [])] ++ its3) (its1 ++ [(h, Ex e [])] ++ its3) ([], sh0) o y) as (o' & y' & E' & A); [|exact E|].
  - intros r z. apply exchange; auto. intros fields x v w Q Ev.
    assert (Gx : g_ok (sh_g (snd x))) by (apply Q; cbn [snd]; rewrite <- S2; exact G).
    destruct (include_runs (inc_one k p full a) limit64 k e p fields x eq_refl Nf Gx) as (x1 & F1 & Q1 & Er). rewrite Er. rewrite ev_atom_expr in Ev.
    destruct (literal_contents inc k a t fields x v w ([], snd x1) Sc If Ev) as (v' & gl & sh' & Ec & Sv).
    assert (Nv : assoc full (sh_vals (snd x1)) = None).
    { rewrite (proj1 Q1), (proj1 Q). cbn [snd]. rewrite <- S1. reflexivity. }
    exists v', (fst x1, mksh ((full, v') :: sh_vals sh') [] [] (sh_g sh')). split.
    { unfold inc_one. destruct (inc_ty_dec k k) as [_|]; [|congruence]. rewrite str_eqb_refl, Nv, Ec. reflexivity. }
    split; [exact Sv|]. intros n. cbn [fst]. rewrite F1. destruct Sc as (Pa & _ & Df). rewrite (proj1 (plain_inc inc nofile limit64) a Pa) in Ev.
    apply (proj1 (fr_ev nofile limit64 ltac:(discriminate) (fun _ => False)) a ltac:(intros m X; rewrite Df in X; destruct X) 1 fields _ _ _ Ev n); auto.
  - exists o'. split; [|exact A]. exists (its1 ++ [(h, Ex e [])] ++ its3), (inc_one k p full a), sh0, y'. split; [exact R'|]. split; [|split; [split; auto|exact E']].
    intros k' p' x w z _. eapply inc_one_sound; eauto.
Qed.

(** ** The other direction *)
Lemma emap_up inc es : forall x r, emap (ev_expr inc limit64 1 []) es x = Some r -> emap (ev_expr inc no_limit 1 []) es x = Some r.
Proof.
  induction es as [|e es IH]; intros x [r y] E; cbn [emap] in *; [exact E|]. apply ebind_some in E as (v & x1 & E1 & E). apply ebind_some in E as (vs & x2 & E2 & E).
  unfold ebind. rewrite (lim_up _ _ _ _ _ _ _ E1), (IH _ _ E2). exact E.
Qed.
Lemma contents_literal inc k a t sh v sh' fields x : self_contained a -> in_file k a t -> file_value inc k t sh v sh' ->
  exists v' y, ev_atom nofile no_limit 1 fields a x = Some (v', y) /\ same v v'.
Proof.
  assert (Ls : forall es d, forallb Refactor.plain es = true -> flat_map reads es = [] -> flat_map defines es = [] ->
    rel (fun _ => False) (fun _ => False) (fun _ _ => True) (fun vs ws => map erase vs = map erase ws) (emap (ev_expr inc no_limit 1 []) es) (emap (ev_expr nofile no_limit d fields) es)).
  { intros es d P Rd Df. rewrite <- (map_id es) at 1. rewrite <- (map_id es) at 2. apply rel_emap. rewrite forallb_forall in P. apply Forall_forall. intros e Ie.
    apply rel_expr with (ge := fun _ _ => True); auto.
    - intros n X _. apply (none_in _ n (flat_none _ _ _ Rd Ie) X).
    - intros n X. apply (none_in _ n (flat_none _ _ _ Df Ie) X).
    - intros n w X. exfalso. apply (none_in _ n (flat_none _ _ _ Rd Ie) X). }
  intros Sc If. revert Sc. destruct If as [its t R|es t R|es t R|cs t R]; intros (P & Rd & Df) Fv; inversion Fv as [t1 sh1|t1 sh1 its' o gl sh1' R' E|t1 sh1 es' o gl sh1' R' E|t1 sh1 es' o gl sh1' R' E]; subst.
  - assert (its' = its) as -> by (eapply doc_unique; eauto). apply doc_up in E. unfold ev_doc in E. apply ebind_some in E as (r & x1 & E1 & E2). apply fresh_ret in E2.
    destruct (rel_all_items inc nofile no_limit (fun _ _ => True) (fun _ => False) (fun _ => False) its 1 (1 + 1) [] [] None None ltac:(auto) ltac:(auto)) with (x := (@nil (str * value), sh)) (y := x) (a := r) (x' := x1)
      as (r' & gs' & E1' & (new & new' & N1 & N2 & N3 & N4) & _); auto.
    + unfold item_plain. cbn [plain_atom] in P. rewrite forallb_forall in *. intros [f e] X. apply (P _ X).
    + intros n X G. apply (none_in _ n Rd). cbn [reads_atom]. apply filter_In. split; auto. unfold item_reads in X. apply in_flat_map in X as ([f e] & X & Y).
      apply in_flat_map. exists (f, e). auto.
    + intros n X. apply (none_in _ n Df). cbn [defines_atom]. unfold item_defines in X. apply in_flat_map in X as ([f e] & X & Y).
      apply in_flat_map. exists (f, e). auto.
    + intros n w _ A. discriminate.
    + apply no_inv.
    + destruct gs' as [gl' sh2]. eexists _, _. rewrite ev_obj. unfold deep. change (no_limit (1 + 1)) with true. cbn iota.
      rewrite (bind_step _ _ _ _ _ E1'). split; [reflexivity|].
      rewrite E2. unfold same. cbn [erase erase_obj]. cbn [app] in N1, N2. subst new new'. do 2 f_equal; [exact N3|exact N4].
  - assert (es' = es) as -> by (eapply list_unique; eauto). unfold ev_arr_doc in E. apply ebind_some in E as (vs & x1 & E1 & E2). apply emap_up in E1.
    destruct (Ls es (1 + 1) P Rd Df _ x vs x1 (no_inv _ _) E1) as (ws & [gl' sh2] & E1' & Q & _).
    rewrite (same_types _ _ Q) in E2. destruct (lub _) as [u|] eqn:Lu; [|discriminate]. apply fresh_ret in E2.
    eexists _, _. rewrite ev_arr. unfold deep. change (no_limit (1 + 1)) with true. cbn iota. rewrite (bind_step _ _ _ _ _ E1'), Lu. split; [reflexivity|]. rewrite E2. unfold same. cbn. congruence.
  - assert (es' = es) as -> by (eapply list_unique; eauto). unfold ev_tup_doc in E. apply ebind_some in E as (vs & x1 & E1 & E2). apply emap_up in E1.
    destruct (Ls es (1 + 1) P Rd Df _ x vs x1 (no_inv _ _) E1) as (ws & [gl' sh2] & E1' & Q & _). apply fresh_ret in E2.
    eexists _, _. rewrite ev_tup. unfold deep. change (no_limit (1 + 1)) with true. cbn iota. rewrite (bind_step _ _ _ _ _ E1'). split; [reflexivity|]. rewrite E2. unfold same. cbn. rewrite (same_types _ _ Q). congruence.
  - change (exists v' y, elift (option_map VStr (str_value cs)) x = Some (v', y) /\ same (VStr t) v'). rewrite R. eexists _, _. split; reflexivity.
Qed.
Lemma put_back fs chain file g its1 h a its3 k e p t full i fe text text' o :
  r_doc (its1 ++ [(h, Ex e [])] ++ its3) text -> r_doc (its1 ++ [(h, Ex a [])] ++ its3) text' ->
  self_contained a -> in_file k a t -> names_file k e p -> item_plain its1 = true -> item_plain its3 = true ->
  nest_doc (its1 ++ [(h, Ex a [])] ++ its3) <= 63 ->
  fs_entry fs (target file p) = Some (i, fe) -> fe_canon fe = Some full -> fe_read fe = inl t -> g_ok g ->
  loads fs chain file g text o -> exists o', loads fs chain file g text' o' /\ alike o o'.
Proof.
  intros R R' Sc If Nf P1 P3 Nd En Fc Rd G (d & inc & sh0 & y & Rd0 & Hi & [S1 S2] & E).
  assert (d = its1 ++ [(h, Ex e [])] ++ its3) as -> by (eapply doc_unique; eauto). apply doc_up in E.
  assert (C : canon fs (target file p) = Some full) by (unfold canon; rewrite En; exact Fc).
  destruct (doc_exchange inc nofile no_limit (its1 ++ [(h, Ex e [])] ++ its3) (its1 ++ [(h, Ex a [])] ++ its3) ([], sh0) o y) as (o' & y' & E' & A); [|exact E|].
  - intros r z. apply exchange; auto. intros fields x v w Q Ev.
    assert (Gx : g_ok (sh_g (snd x))) by (apply Q; cbn [snd]; rewrite <- S2; exact G).
    destruct (include_runs inc no_limit k e p fields x eq_refl Nf Gx) as (x1 & F1 & Q1 & Er). rewrite Er in Ev.
    assert (Nv : sh_vals (snd x1) = []) by (rewrite (proj1 Q1), (proj1 Q); cbn [snd]; rewrite <- S1; reflexivity).
    assert (In1 : includes fs chain file k p x1 v w) by (apply Hi; auto; unfold sane; rewrite Nv; constructor).
    assert (X : fst w = fst x1 /\ exists inc' sh1 sh2, file_value inc' k t sh1 v sh2).
    { clear - In1 Nv C En Rd. inversion In1; subst; cbn [fst snd] in *.
      - rewrite Nv in *. discriminate.
      - split; [reflexivity|]. match goal with H1 : fs_entry fs (target file p) = Some (?j, ?f2), H2 : fe_read ?f2 = inl ?t2 |- _ => assert (t2 = t) as -> by congruence end. eauto. }
    destruct X as (Fw & inc' & sh1 & sh2 & Fv). destruct (contents_literal inc' k a t sh1 v sh2 fields x Sc If Fv) as (v' & w' & Ev' & Sv).
    exists v', w'. split; [rewrite ev_atom_expr; exact Ev'|]. split; [exact Sv|]. intros n. rewrite Fw, F1. symmetry. destruct Sc as (Pa & _ & Df).
    apply (proj1 (fr_ev nofile no_limit ltac:(discriminate) (fun _ => False)) a ltac:(intros m X; rewrite Df in X; destruct X) 1 fields _ _ _ Ev' n); auto.
  - exists o'. split; [|exact A]. exists (its1 ++ [(h, Ex a [])] ++ its3), nofile, sh0, y'. split; [exact R'|]. split; [discriminate|]. split; [split; auto|].
    rewrite doc_shallow by exact Nd. exact E'.
Qed.

(** ** The theorems *)
(** [fs] has a file that [p], used in [file], leads to: its canonical path is [full], its text [t]. *)
Definition file_at (fs : fsys) (file : option str) (p full t : str) : Prop :=
  exists i fe, fs_entry fs (target file p) = Some (i, fe) /\ fe_canon fe = Some full /\ fe_read fe = inl t.
(** The literal [a] of the first document is the include [e] in the second; [e] leads to a file with the contents of [a]. *)
Record moves (its1 : list (str * expr)) (h : str) (a e : atom) (its3 : list (str * expr)) (text text' : str) (fs : fsys) (file : option str) (full : str) : Prop := {
  mv_text : r_doc (its1 ++ [(h, Ex a [])] ++ its3) text;
  mv_text' : r_doc (its1 ++ [(h, Ex e [])] ++ its3) text';
  mv_self : self_contained a;
  mv_before : item_plain its1 = true;
  mv_after : item_plain its3 = true;
  mv_file : exists k p t, in_file k a t /\ names_file k e p /\ file_at fs file p full t }.

Theorem C61_to_file_str fs g its1 h a e its3 text text' full o : moves its1 h a e its3 text text' fs None full -> g_ok g ->
  from_str fs g text = Some (OOk o) -> exists o', from_str fs g text' = Some (OOk o') /\ alike o o' /\ obj_eqb o' o = true.
Proof.
  intros [R R' Sc P1 P3 (k & p & t & If & Nf & i & fe & En & Fc & Rd)] G E. pose proof (loaded_any _ _ _ _ E) as W. apply C43_str in E.
  destruct (moved fs [] None g its1 h a its3 k e p t full i fe text text' o) as (o' & L & A); auto.
  exists o'. split; [apply C43_str; exact L|]. split; [exact A|apply alike_eq; auto].
Qed.
Theorem C61_from_file_str fs g its1 h a e its3 text text' full o : moves its1 h a e its3 text text' fs None full -> g_ok g ->
  nest_doc (its1 ++ [(h, Ex a [])] ++ its3) <= 63 ->
  from_str fs g text' = Some (OOk o) -> exists o', from_str fs g text = Some (OOk o') /\ alike o o' /\ obj_eqb o' o = true.
Proof.
  intros [R R' Sc P1 P3 (k & p & t & If & Nf & i & fe & En & Fc & Rd)] G Nd E. pose proof (loaded_any _ _ _ _ E) as W. apply C43_str in E.
  destruct (put_back fs [] None g its1 h a its3 k e p t full i fe text' text o) as (o' & L & A); auto.
  exists o'. split; [apply C43_str; exact L|]. split; [exact A|apply alike_eq; auto].
Qed.
(** The document is the file [path]: the two file systems differ in it only. *)
Theorem C61_to_file_file fs fs' g path i fe i' fe' c its1 h a e its3 text text' full o : only_differs c fs fs' ->
  fs_entry fs path = Some (i, fe) -> fe_read fe = inl text -> fe_canon fe = Some c ->
  fs_entry fs' path = Some (i', fe') -> fe_read fe' = inl text' ->
  moves its1 h a e its3 text text' fs' (Some path) full -> full <> c -> g_ok g ->
  from_file fs g path = Some (OOk o) -> exists o', from_file fs' g path = Some (OOk o') /\ alike o o'.
Proof.
  intros D En Rd Fc En' Rd' [R R' Sc P1 P3 (k & p & t & If & Nf & j & fj & Ej & Cj & Rj)] Nc G E.
  assert (Fc' : fe_canon fe' = Some c). { destruct (D path) as [C _]. unfold canon in C. rewrite En, En' in C. congruence. }
  apply (C43_file fs g path i fe text c o En Rd Fc) in E. apply (loads_elsewhere fs fs') in E; auto.
  destruct (moved fs' [c] (Some path) g its1 h a its3 k e p t full j fj text text' o) as (o' & L & A); auto.
  { intros [X|[]]. congruence. }
  exists o'. split; [|exact A]. apply (C43_file fs' g path i' fe' text' c o' En' Rd' Fc'). exact L.
Qed.
Theorem C61_from_file_file fs fs' g path i fe i' fe' c its1 h a e its3 text text' full o : only_differs c fs fs' ->
  fs_entry fs path = Some (i, fe) -> fe_read fe = inl text' -> fe_canon fe = Some c ->
  fs_entry fs' path = Some (i', fe') -> fe_read fe' = inl text ->
  moves its1 h a e its3 text text' fs' (Some path) full -> nest_doc (its1 ++ [(h, Ex a [])] ++ its3) <= 63 -> g_ok g ->
  from_file fs g path = Some (OOk o) -> exists o', from_file fs' g path = Some (OOk o') /\ alike o o'.
Proof.
  intros D En Rd Fc En' Rd' [R R' Sc P1 P3 (k & p & t & If & Nf & j & fj & Ej & Cj & Rj)] Nd G E.
  assert (Fc' : fe_canon fe' = Some c). { destruct (D path) as [C _]. unfold canon in C. rewrite En, En' in C. congruence. }
  apply (C43_file fs g path i fe text' c o En Rd Fc) in E. apply (loads_elsewhere fs fs') in E; auto.
  destruct (put_back fs' [c] (Some path) g its1 h a its3 k e p t full j fj text' text o) as (o' & L & A); auto.
  exists o'. split; [|exact A]. apply (C43_file fs' g path i' fe' text c o' En' Rd' Fc'). exact L.
Qed.
End P.

(** ** Concrete cases: the Obj of field x is in the file b; the Arr of the global @g in the file u *)
Section Ex.
#[local] Instance ascii : Unicode := {| u_alpha := fun _ => false; u_debug := fun c => [c] |}.
Definition lit_b : atom := AObj [(lit "z", Ex (ANum (lit "5")) []); (lit "y", Ex (AVar false (lit "z")) [(BPlus, ANum (lit "1"))])].
Definition inc_b : atom := AInc (Ex (AStr [SPlain 98]) []) None.
Definition lit_u : atom := AArr [one; Ex (ANum (lit "2")) []].
Definition inc_u : atom := AInc (Ex (AVar false (lit "Arr")) []) (Some (Ex (AStr [SPlain 117]) [])).
Definition w3 : fsys := world [] (lit "z: 5 y: z+1 ") (lit "1 2 ").
Definition m1 : list (str * expr) := [aa; bb].
Definition m3 : list (str * expr) := [(lit "q", Ex (ADot false (lit "x") (AVar false (lit "y"))) [])].
Definition m3' : list (str * expr) := [cc].
Definition doc_of (a : atom) := m1 ++ [(lit "x", Ex a [])] ++ m3.
Definition gdoc_of (a : atom) := m1 ++ [(lit "@g", Ex a [])] ++ m3'.
Example C61_ex_obj : moves m1 (lit "x") lit_b inc_b m3 (show_items (doc_of lit_b)) (show_items (doc_of inc_b)) w3 None (lit "/b") /\
  (nest_doc (doc_of lit_b) <= 63) /\ exists o, from_str w3 g0 (show_items (doc_of lit_b)) = Some (OOk o).
Proof.
  split; [constructor; try reflexivity|].
  - apply show_doc. reflexivity.
  - apply show_doc. reflexivity.
  - repeat split.
  - exists IObj, (lit "b"), (lit "z: 5 y: z+1 "). split; [constructor; apply show_doc; reflexivity|]. split; [constructor; reflexivity|].
    eexists _, _. split; [vm_compute; reflexivity|]. split; reflexivity.
  - split; [vm_compute; discriminate|]. eexists. vm_compute. reflexivity.
Qed.
Example C61_ex_arr : moves m1 (lit "@g") lit_u inc_u m3' (show_items (gdoc_of lit_u)) (show_items (gdoc_of inc_u)) w3 None (lit "/u") /\
  (nest_doc (gdoc_of lit_u) <= 63) /\ exists o, from_str w3 g0 (show_items (gdoc_of inc_u)) = Some (OOk o).
Proof.
  split; [constructor; try reflexivity|].
  - apply show_doc. reflexivity.
  - apply show_doc. reflexivity.
  - repeat split.
  - exists IArr, (lit "u"), (lit "1 2 "). split; [|split; [constructor; reflexivity|eexists _, _; split; [vm_compute; reflexivity|]; split; reflexivity]].
    constructor. exists [], (lit "1 2 "), []. split; [reflexivity|]. split; [constructor|]. split; [|left; reflexivity].
    apply (show_elems [one; Ex (ANum (lit "2")) []]); [|reflexivity]. apply Forall_forall. intros e _. apply show_ok.
  - split; [vm_compute; discriminate|]. eexists. vm_compute. reflexivity.
Qed.
End Ex.
