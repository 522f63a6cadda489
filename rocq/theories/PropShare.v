(** * PropShare: C60, one instance is one value. *)
From Verif Require Import Complete LangSpec PropLoad PropScope PropLang PropLit PropComplete PropNames PropOps Prefix PropStep Roundtrip.
From Verif Require Import EvalProofs Share PropHistory.
From Coq Require String.
Import String.StringSyntax.
Open Scope N_scope.

(** [ptr_eq] of arr.rs, tup.rs and obj.rs, as one relation on values. *)
Definition same_instance (v w : value) : Prop :=
  match v, w with
  | VArr a, VArr b => arr_ptr_eq a b = true
  | VTup a, VTup b => tup_ptr_eq a b = true
  | VObj a, VObj b => obj_ptr_eq a b = true
  | _, _ => False
  end.
Lemma same_ids v w : same_instance v w -> exists i, id_of v = Some i /\ id_of w = Some i.
Proof.
  destruct v, w; cbn; try contradiction; unfold arr_ptr_eq, tup_ptr_eq, obj_ptr_eq; intros E; apply N.eqb_eq in E; rewrite E; eauto.
Qed.
(** [w] is one of the things the container [v] holds. *)
Inductive holds : value -> value -> Prop :=
| holds_arr id t vs w : In w vs -> holds (VArr (MkArr id t vs)) w
| holds_tup id t vs w : In w vs -> holds (VTup (MkTup id t vs)) w
| holds_field id ps par f w : In (f, w) ps -> holds (VObj (MkObj id ps par)) w
| holds_parent id ps p : holds (VObj (MkObj id ps (Some p))) (VObj p).
Lemma holds_depth v w : holds v w -> depth w < depth v.
Proof.
  assert (M : forall l n, In n l -> n <= fold_right N.max 0 l).
  { induction l; cbn; intros n []; [subst; lia|]. specialize (IHl _ H). lia. }
  destruct 1; cbn [depth depth_obj].
  - apply (in_map depth) in H. apply M in H. lia.
  - apply (in_map depth) in H. apply M in H. lia.
  - apply (in_map (fun p => match p with (f, v) => depth v end)) in H. apply M in H. lia.
  - lia.
Qed.
Lemma part_depth p v : part p v -> depth p <= depth v.
Proof.
  induction 1; [lia|..].
  - pose proof (holds_depth _ _ (holds_arr id t vs w H)). lia.
  - pose proof (holds_depth _ _ (holds_tup id ts vs w H)). lia.
  - pose proof (holds_depth _ _ (holds_field id ps par f w H)). lia.
  - pose proof (holds_depth _ _ (holds_parent id ps p0)). lia.
Qed.

Section P.
Context `{U : Unicode}.

(** *** The engine *)
Lemma load_heap fs g o g' : process g -> loads_to fs g o g' -> exists H, kept H (g_next g') (VObj o) /\
  forall k i, g_sent g' k = Some i -> i < g_next g' /\ H i = kw i.
Proof.
  intros P L. apply process_ok in P.
  assert (K : exists file sh0 its gl sh, sh_g sh0 = g /\ sh_vals sh0 = [] /\ meaning fs limit64 file sh0 its = Some (o, (gl, sh)) /\ g' = sh_g sh).
  { destruct L as [(text & sh & E & ->)|(path & sh & E & ->)].
    - unfold parse_obj_str in E. destruct (run_doc fs _ _ _ _ (init_sh g) _ _ (Forall_nil _) E) as [d Hd].
      pose proof (run_agree fs None (init_sh g) d text (Forall_nil _) Hd) as A. rewrite E in A. destruct A as [gl A].
      exists None, (init_sh g), d, gl, sh. auto.
    - unfold parse_obj_file, open_file in E. destruct (fs_entry fs path) as [[i fe]|]; [|discriminate].
      destruct (fe_read fe) as [text|]; [|discriminate].
      match type of E with run_stream _ _ _ ?s = _ => destruct (run_doc fs _ _ _ _ s _ _ (Forall_nil _) E) as [d Hd]; pose proof (run_agree fs (Some path) s d text (Forall_nil _) Hd) as A; exists (Some path), s, d end.
      rewrite E in A. destruct A as [gl A]. exists gl, sh. auto. }
  destruct K as (file & sh0 & its & gl & sh & E1 & E2 & M & ->).
  assert (I : inv kw ([], sh0)).
  { pose proof (inv_start g P) as I. eapply inv_shift; [exact I|exact E1|constructor|rewrite E2; constructor|]. unfold wfvals. rewrite E2. constructor. }
  destruct (gv_meaning fs file its kw sh0 I _ _ M) as (H & I' & _ & K). exists H. split; [exact K|]. apply I'.
Qed.

(** ** Within a load *)
(** Two containers of one loaded Obj that are the same instance are the same value: the same fields and elements,
    which are the same instances again. *)
Theorem C60_same_instance fs g o g' p q : process g -> loads_to fs g o g' ->
  part p (VObj o) -> part q (VObj o) -> same_instance p q -> p = q.
Proof.
  intros P L Pp Pq S. destruct (load_heap _ _ _ _ P L) as (H & K & _). apply same_ids in S as (i & Ip & Iq).
  destruct (K _ _ Pp Ip) as [_ <-]. destruct (K _ _ Pq Iq) as [_ <-]. reflexivity.
Qed.
(** The id of an Arr is never that of a Tup or an Obj of the load, and so on. *)
Theorem C60_kinds_apart fs g o g' : process g -> loads_to fs g o g' ->
  (forall a t, part (VArr a) (VObj o) -> part (VTup t) (VObj o) -> arr_id a <> tup_id t) /\
  (forall a p, part (VArr a) (VObj o) -> part (VObj p) (VObj o) -> arr_id a <> obj_id p) /\
  (forall t p, part (VTup t) (VObj o) -> part (VObj p) (VObj o) -> tup_id t <> obj_id p).
Proof.
  intros P L. destruct (load_heap _ _ _ _ P L) as (H & K & _). split; [|split]; intros x y Px Py E;
    destruct (K _ _ Px eq_refl) as [_ A]; destruct (K _ _ Py eq_refl) as [_ B]; congruence.
Qed.
(** Nothing that is loaded contains itself. *)
Theorem C60_no_cycles fs g o g' p w q : process g -> loads_to fs g o g' ->
  part p (VObj o) -> holds p w -> part q w -> ~ same_instance p q.
Proof.
  intros P L Pp Hw Pq S.
  assert (Pw : part w p) by (destruct Hw; [eapply part_arr|eapply part_tup|eapply part_field|apply part_parent]; eauto; constructor).
  rewrite (C60_same_instance fs g o g' p q P L Pp) in Hw; auto.
  - apply holds_depth in Hw. apply part_depth in Pq. lia.
  - eapply part_trans; [exact Pq|]. eapply part_trans; eauto.
Qed.
(** ** Between loads *)
Theorem C60_two_loads fs1 fs2 g1 o1 g1' g2 o2 g2' p q :
  process g1 -> loads_to fs1 g1 o1 g1' -> process g2 -> g_later g1' g2 -> loads_to fs2 g2 o2 g2' ->
  part p (VObj o1) -> part q (VObj o2) -> same_instance p q ->
  p = q /\ exists o, p = VObj o /\ obj_pairs o = [] /\ obj_parent o = None.
Proof.
  intros P1 L1 P2 La L2 Pp Pq S. destruct (C40_loads_share_nothing _ _ _ _ _ _ _ _ P1 L1 P2 La L2) as (A & T & B).
  destruct p as [|x1|x2|x3|x4|a|t|a]; try contradiction; destruct q as [|y1|y2|y3|y4|b|u|b]; try contradiction; cbn in S.
  - rewrite (A a b) in S by auto. discriminate.
  - rewrite (T t u) in S by auto. discriminate.
  - destruct (B a b Pp Pq S) as [k Sk]. unfold obj_ptr_eq in S. apply N.eqb_eq in S.
    pose proof (loads_later _ _ _ _ P2 L2) as [_ L3]. specialize (L3 k). rewrite Sk in L3.
    destruct (load_heap _ _ _ _ P1 L1) as (H1 & K1 & S1). destruct (load_heap _ _ _ _ P2 L2) as (H2 & K2 & S2).
    destruct (K1 _ _ Pp eq_refl) as [X1 Y1]. destruct (K2 _ _ Pq eq_refl) as [X2 Y2]. destruct La as [_ La]. specialize (La k).
    destruct (g_sent g1' k) as [j|] eqn:Sj.
    + rewrite La in Sk. injection Sk as ->. destruct (S1 _ _ Sj) as [_ Z1]. destruct (S2 _ _ L3) as [_ Z2].
      cbn in Y1, Y2. rewrite S, Z1 in Y1. rewrite Z2 in Y2. rewrite <- Y1, <- Y2. split; [reflexivity|].
      exists (obj_empty (obj_id b)). auto.
    + rewrite Sk in La. cbn in X1. lia.
Qed.

(** ** What makes a new instance, and what does not *)
(** [v] is none of the instances in the fields and the parent of [o].  (The Obj [o] itself is created after its
    fields: with one more field it is another Obj.) *)
Definition not_inside (v : value) (o : obj) : Prop := forall w p, holds (VObj o) w -> part p w -> ~ same_instance v p.

Lemma one_more_new fs g text o h e t : process g -> before fs g text o h -> r_expr e t ->
  exists H y, inv H y /\ keptp H (nxt y) (obj_pairs o) /\ kepto H (nxt y) (obj_parent o) /\
    match ev_expr (include_meaning fs None) limit64 1 (obj_pairs o) e y with
    | Some (v, _) => adds fs g text o h t v
    | None => refused fs g text h t
    end.
Proof.
  intros P (E & Hh & Nh) R. assert (E0 := E). apply C41_accepted_iff in E as (its & x & D & M).
  assert (Nf : ~ In h (field_names its)).
  { rewrite <- (C27_field_order fs g its text o D E0). intros X. apply in_map_iff in X as ([f v] & Ef & X). cbn in Ef. subst f.
    clear - X Nh. induction (obj_pairs o) as [|[f' v'] ps IH]; [destruct X|]. cbn [assoc] in Nh.
    destruct (str_eqb_spec f' h) as [->|N]; [discriminate|]. destruct X as [X|X]; [inversion X; congruence|auto]. }
  assert (D' : r_doc (its ++ [(h, e)]) (more text h t)).
  { apply doc_cat; auto. exists [], (h ++ lit ": " ++ t), []. split; [rewrite app_nil_r; reflexivity|]. split; [constructor|].
    split; [|left; auto]. replace (h ++ lit ": " ++ t) with (h ++ c_colon :: lit " " ++ t ++ [] ++ []) by (rewrite !app_nil_r; reflexivity).
    apply r_icons; auto; try (repeat constructor; fail). apply legal_item; auto. }
  apply doc_items in M as (r & y & E & ->). cbn [obj_pairs] in *.
  destruct (gv_all_items (include_meaning fs None) limit64 (fun k p H x => gv_inc fs _ None k p H x) its 1 [] None kw ([], init_sh g)
    (Forall_nil _) ltac:(discriminate) (inv_start g (process_ok _ P)) r y E) as (H & I & _ & K1 & K2).
  exists H, y. split; [exact I|]. split; [exact K1|]. split; [exact K2|].
  pose proof (doc_snoc fs g its h e r y Hh Nf E) as S.
  destruct (ev_expr _ _ _ _ _ _) as [[v z]|].
  - destruct S as (x' & S). eexists. split; [apply (str_ok fs g _ _ D'); eauto|split; reflexivity].
  - apply (str_err fs g _ _ D'). exact S.
Qed.
(** ids drawn later than everything in the fields *)
Lemma late_not_inside H n o v i : keptp H n (obj_pairs o) -> kepto H n (obj_parent o) -> id_of v = Some i -> n <= i -> not_inside v o.
Proof.
  intros K1 K2 Iv L w p Hw Pp S. apply same_ids in S as (j & Ej & Ep). assert (j = i) by congruence. subst j.
  inversion Hw as [| |id ps par f w' Hin|id ps q]; subst; cbn [obj_pairs obj_parent] in *.
  - unfold keptp in K1. rewrite Forall_forall in K1. destruct (K1 _ Hin _ _ Pp Ep). lia.
  - destruct (K2 _ eq_refl _ _ Pp Ep). lia.
Qed.
(** the atom of a literal *)
Definition literal (a : atom) : Prop := match a with AArr _ | ATup _ | AObj _ => True | _ => False end.
Lemma literal_late inc lim (Hinc : forall k p H x, gv H x (inc k p) kept) d fields a H y v z : literal a -> inv H y -> keptp H (nxt y) fields ->
  ev_atom inc lim d fields a y = Some (v, z) -> exists i, id_of v = Some i /\ nxt y <= i.
Proof.
  intros La I K E. destruct a; try contradiction.
  - rewrite ev_arr in E. apply deep_some, ebind_some in E as (vs & y1 & E1 & E2).
    destruct (gv_all_emap inc lim Hinc es (d + 1) fields H y K I _ _ E1) as (H1 & _ & [X _] & _).
    destruct (lub _); [|discriminate]. apply ebind_some in E2 as (i & y2 & E2 & E3). destruct y1 as [gl1 sh1]. injection E2 as <- <-. injection E3 as <- <-.
    eexists. split; [reflexivity|exact X].
  - rewrite ev_tup in E. apply deep_some, ebind_some in E as (vs & y1 & E1 & E2).
    destruct (gv_all_emap inc lim Hinc es (d + 1) fields H y K I _ _ E1) as (H1 & _ & [X _] & _).
    apply ebind_some in E2 as (i & y2 & E2 & E3). destruct y1 as [gl1 sh1]. injection E2 as <- <-. injection E3 as <- <-.
    eexists. split; [reflexivity|exact X].
  - rewrite ev_obj in E. apply deep_some, ebind_some in E as (r & y1 & E1 & E2).
    destruct (gv_all_items inc lim Hinc items (d + 1) [] None H y (Forall_nil _) ltac:(discriminate) I _ _ E1) as (H1 & _ & [X _] & _).
    apply ebind_some in E2 as (i & y2 & E2 & E3). destruct y1 as [gl1 sh1]. injection E2 as <- <-. injection E3 as <- <-.
    eexists. split; [reflexivity|exact X].
Qed.
(** [h: [...]], [h: (...)], [h: {...}]: a literal is a new instance each time it is evaluated. *)
Theorem C60_literal_is_new fs g text o h a t : process g -> before fs g text o h -> literal a -> r_atom a t ->
  (exists v, adds fs g text o h t v /\ not_inside v o) \/ refused fs g text h t.
Proof.
  intros P B La R. destruct (one_more_new fs g text o h _ _ P B (atom_expr _ _ R)) as (H & y & I & K1 & K2 & M).
  rewrite ev_atom_expr in M. destruct (ev_atom _ _ _ _ _ _) as [[v z]|] eqn:E; [left|right; exact M].
  exists v. split; [exact M|].
  destruct (literal_late _ _ (fun k p H x => gv_inc fs _ None k p H x) _ _ _ _ _ _ _ La I K1 E) as (i & Ei & Li).
  eapply late_not_inside; eauto.
Qed.
(** [h: f]: a name is the same instance. *)
Theorem C60_name_is_shared fs g text o h f v : before fs g text o h -> legal_field f ->
  assoc f (obj_pairs o) = Some v -> id_of v <> None ->
  exists o' w, from_str fs g (more text h f) = Some (OOk o') /\ assoc f (obj_pairs o') = Some v /\
    assoc h (obj_pairs o') = Some w /\ same_instance v w.
Proof.
  intros B Hf A N. destruct (proj1 (C20_line fs g text o h f B Hf) v A) as (o' & E & Ps & _).
  exists o', v. split; [exact E|]. rewrite Ps. split; [apply assoc_app_l; auto|]. split.
  - destruct B as (_ & _ & Nh). clear - Nh. induction (obj_pairs o) as [|[f' v'] ps IH]; cbn [assoc app] in *.
    + destruct (str_eqb_spec h h); congruence.
    + destruct (str_eqb f' h); [discriminate|auto].
  - destruct v; cbn in *; try congruence; unfold arr_ptr_eq, tup_ptr_eq, obj_ptr_eq; apply N.eqb_refl.
Qed.
(** [h: f + k] of two Arrs is a new Arr, even if one of them is empty. *)
Theorem C60_sum_is_new fs g text o h f k a b : process g -> before fs g text o h ->
  assoc f (obj_pairs o) = Some (VArr a) -> assoc k (obj_pairs o) = Some (VArr b) ->
  (exists c, adds fs g text o h (f ++ lit "+" ++ k) (VArr c) /\ arr_values c = arr_values a ++ arr_values b /\ not_inside (VArr c) o) \/
  refused fs g text h (f ++ lit "+" ++ k).
Proof.
  intros P B Af Ak. pose proof (field_legal _ _ _ _ _ _ (proj1 B) Af) as Hf. pose proof (field_legal _ _ _ _ _ _ (proj1 B) Ak) as Hk.
  destruct (one_more_new fs g text o h (Ex (AVar false f) [(BPlus, AVar false k)]) (f ++ lit "+" ++ k) P B) as (H & y & I & K1 & K2 & M).
  { replace (f ++ lit "+" ++ k) with (f ++ (op_text BPlus :: k ++ [])) by (rewrite app_nil_r; reflexivity).
    apply r_ex; [apply r_field; auto|]. apply r_ccons; [apply r_field; auto|constructor]. }
  rewrite ev_expr_Ex in M. unfold ebind at 1 in M. rewrite (ev_field _ _ _ f _ _ y Hf Af) in M.
  cbn [emap] in M. unfold ebind in M. rewrite (ev_field _ _ _ k _ _ y Hk Ak) in M. unfold eret in M. cbn [ev_chain add_up is_priority] in M.
  unfold ebind, eret, ev_op in M. destruct (most_specific _ _) as [[u c]|]; [|right; exact M]. left.
  destruct y as [gl sh]. cbn [fresh ebind] in M. unfold ebind, fresh, eret in M. eexists. split; [exact M|]. split; [reflexivity|].
  eapply late_not_inside; eauto; [reflexivity|]. reflexivity.
Qed.
End P.

(** ** Examples *)
Section Ex.
#[local] Instance ascii : Unicode := {| u_alpha := fun _ => false; u_debug := fun c => [c] |}.
Definition ex_share : str := lit "@g: [(1 2)] a: @g b: a c: [(1 2)] d: a.0 e: {^: {p: @g} q: @g} k: Arr m: Arr s: a+[]".
Definition fld (n : str) (o : obj) : value := match assoc n (obj_pairs o) with Some v => v | None => VNull end.
Example C60_ex_load : exists o sh, parse_obj_str no_fs g0 ex_share = (Ok o, sh) /\
  same_instance (fld (lit "a") o) (fld (lit "b") o) /\ same_instance (fld (lit "k") o) (fld (lit "m") o) /\
  ~ same_instance (fld (lit "a") o) (fld (lit "c") o) /\ ~ same_instance (fld (lit "a") o) (fld (lit "s") o) /\
  (exists a, fld (lit "a") o = VArr a /\ exists t, arr_values a = [t] /\ same_instance t (fld (lit "d") o)) /\
  (exists p e, fld (lit "e") o = VObj e /\ obj_parent e = Some p /\ same_instance (fld (lit "p") p) (fld (lit "b") o) /\ same_instance (fld (lit "q") e) (fld (lit "a") o)).
Proof.
  eexists. eexists. split; [vm_compute; reflexivity|]. repeat split; try (vm_compute; reflexivity); try (vm_compute; discriminate).
  - eexists. split; [vm_compute; reflexivity|]. eexists. split; vm_compute; reflexivity.
  - eexists. eexists. split; [vm_compute; reflexivity|]. split; [vm_compute; reflexivity|]. split; vm_compute; reflexivity.
Qed.
Example C60_ex_before : exists o, before no_fs g0 (lit "a: [1]") o (lit "h").
Proof.
  eexists. split; [vm_compute; reflexivity|]. split; [|reflexivity].
  exists 104, []. split; [reflexivity|]. split; [left; reflexivity|]. split; [constructor|]. intros X. vm_compute in X. intuition discriminate.
Qed.
Example C60_ex_process : process g0.
Proof. constructor. Qed.
End Ex.
