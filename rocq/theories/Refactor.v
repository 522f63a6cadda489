(** * Refactor: two evaluations of the same expression in different surroundings.

    What an expression without includes evaluates to depends only on the data (not the ids) of the names that it
    reads. *)
From Verif Require Export EvalProofs PropScope ValueSpec.
From Coq Require String.
Import String.StringSyntax.
Open Scope N_scope.

(** ** Names in expressions *)
(** Does [n] name a global? *)
Definition global_name (n : str) : bool := match n with c :: _ => c =? c_at | [] => false end.

(** The names an expression reads: fields of the object around it, and globals (with their @).  An object literal
    has fields of its own. *)
Fixpoint reads_atom (a : atom) : list str :=
  match a with
  | ANum _ | AStr _ => []
  | AVar g n => [if g then c_at :: n else n]
  | ADot g n sub => (if g then c_at :: n else n) :: reads_atom sub
  | AUn _ a => reads_atom a
  | AArr es | ATup es => flat_map reads es
  | AObj its => filter global_name (flat_map (fun p => match p with (f, e) => reads e end) its)
  | AInc e p => reads e ++ match p with Some e2 => reads e2 | None => [] end
  end
with reads (e : expr) : list str :=
  match e with Ex a l => reads_atom a ++ flat_map (fun p => match p with (op, b) => reads_atom b end) l end.

(** The globals it defines (inside object literals). *)
Fixpoint defines_atom (a : atom) : list str :=
  match a with
  | ANum _ | AStr _ | AVar _ _ => []
  | ADot _ _ sub => defines_atom sub
  | AUn _ a => defines_atom a
  | AArr es | ATup es => flat_map defines es
  | AObj its => flat_map (fun p => match p with (f, e) => (if global_name f then [f] else []) ++ defines e end) its
  | AInc e p => defines e ++ match p with Some e2 => defines e2 | None => [] end
  end
with defines (e : expr) : list str :=
  match e with Ex a l => defines_atom a ++ flat_map (fun p => match p with (op, b) => defines_atom b end) l end.

(** No includes. *)
Fixpoint plain_atom (a : atom) : bool :=
  match a with
  | ANum _ | AStr _ | AVar _ _ => true
  | ADot _ _ sub => plain_atom sub
  | AUn _ a => plain_atom a
  | AArr es | ATup es => forallb plain es
  | AObj its => forallb (fun p => match p with (f, e) => plain e end) its
  | AInc _ _ => false
  end
with plain (e : expr) : bool :=
  match e with Ex a l => plain_atom a && forallb (fun p => match p with (op, b) => plain_atom b end) l end.

(** The same for the items of a document or literal. *)
Definition item_reads (its : list (str * expr)) : list str := flat_map (fun p => reads (snd p)) its.
Definition item_defines (its : list (str * expr)) : list str :=
  flat_map (fun p => (if global_name (fst p) then [fst p] else []) ++ defines (snd p)) its.
Definition item_plain (its : list (str * expr)) : bool := forallb (fun p => plain (snd p)) its.

(** ** Replacing a name by an expression *)
Definition key (g : bool) (n : str) : str := if g then c_at :: n else n.
Definition hits (k : str) (g : bool) (n : str) : bool := Bool.eqb (global_name k) g && str_eqb (key g n) k.
(** [b] (if any) for the name [k]: in operands only if [b] is a single operand; not under a dot (there the name may
    be one of another object); inside an object literal only if [k] is a global.  [on]: is the name visible here? *)
Section Sub.
Variables (k : str) (b : option expr).
Definition operand (g : bool) (n : str) : atom := match b with Some (Ex a []) => a | _ => AVar g n end.
Definition whole (g : bool) (n : str) : expr := match b with Some e => e | None => Ex (AVar g n) [] end.
Definition is_name (a : atom) (l : list (binop * atom)) : option (bool * str) :=
  match a, l with AVar g n, [] => Some (g, n) | _, _ => None end.
Fixpoint sub_atom (on : bool) (a : atom) : atom :=
  match a with
  | AVar g n => if on && hits k g n then operand g n else a
  | AUn op a => AUn op (sub_atom on a)
  | AArr es => AArr (map (sub on) es)
  | ATup es => ATup (map (sub on) es)
  | AObj its => AObj (map (fun p => match p with (f, e) => (f, sub (on && global_name k) e) end) its)
  | AInc e p => AInc (sub on e) (match p with Some e2 => Some (sub on e2) | None => None end)
  | ANum _ | AStr _ | ADot _ _ _ => a
  end
with sub (on : bool) (e : expr) : expr :=
  match e with
  | Ex a l =>
      match is_name a l with
      | Some (g, n) => if on && hits k g n then whole g n else e
      | None => Ex (sub_atom on a) (map (fun p => match p with (op, c) => (op, sub_atom on c) end) l)
      end
  end.
End Sub.
Lemma map_same {A} (f : A -> A) l : Forall (fun a => f a = a) l -> map f l = l.
Proof. induction 1 as [|a l Ha Hl IH]; [reflexivity|]. cbn [map]. rewrite Ha, IH. reflexivity. Qed.
Lemma map_same_snd {A B} (f : B -> B) (l : list (A * B)) : Forall (fun p => f (snd p) = snd p) l -> map (fun p => match p with (a, b) => (a, f b) end) l = l.
Proof. intros H. apply map_same. eapply Forall_impl; [|exact H]. intros [a b] E. cbn in *. rewrite E. reflexivity. Qed.
Section SubEq.
Variables (k : str) (b : option expr).
Notation sa := (sub_atom k b).
Notation se := (sub k b).
Lemma sub_arr on es : sa on (AArr es) = AArr (map (se on) es). Proof. reflexivity. Qed.
Lemma sub_tup on es : sa on (ATup es) = ATup (map (se on) es). Proof. reflexivity. Qed.
Lemma sub_obj on its : sa on (AObj its) = AObj (map (fun p => match p with (f, e) => (f, se (on && global_name k) e) end) its). Proof. reflexivity. Qed.
Lemma sub_un on op a : sa on (AUn op a) = AUn op (sa on a). Proof. reflexivity. Qed.
Lemma sub_inc on e p : sa on (AInc e p) = AInc (se on e) (match p with Some e2 => Some (se on e2) | None => None end). Proof. reflexivity. Qed.
Lemma sub_Ex on a l : se on (Ex a l) =
  match is_name a l with
  | Some (g, n) => if on && hits k g n then whole b g n else Ex a l
  | None => Ex (sa on a) (map (fun p => match p with (op, c) => (op, sa on c) end) l)
  end.
Proof. reflexivity. Qed.
End SubEq.
Lemma sub_off_both k b : (forall a, sub_atom k b false a = a) /\ (forall e, sub k b false e = e).
Proof.
  apply ast_ind; intros; rewrite ?sub_arr, ?sub_tup, ?sub_obj, ?sub_un, ?sub_inc, ?sub_Ex; auto.
  - rewrite H. reflexivity.
  - f_equal. apply map_same; auto.
  - f_equal. apply map_same; auto.
  - f_equal. apply map_same_snd; auto.
  - rewrite H. destruct p as [e2|]; [|reflexivity]. rewrite (H0 _ eq_refl). reflexivity.
  - destruct (is_name a l) as [[g n]|]; [reflexivity|]. rewrite H. f_equal. apply map_same_snd; auto.
Qed.
Lemma sub_off k b e : sub k b false e = e. Proof. apply sub_off_both. Qed.
Lemma sub_none_both k : (forall a on, sub_atom k None on a = a) /\ (forall e on, sub k None on e = e).
Proof.
  apply ast_ind; intros; rewrite ?sub_arr, ?sub_tup, ?sub_obj, ?sub_un, ?sub_inc, ?sub_Ex; auto.
  - cbn. destruct (on && _); reflexivity.
  - rewrite H. reflexivity.
  - f_equal. apply map_same. eapply Forall_impl; [|exact H]. auto.
  - f_equal. apply map_same. eapply Forall_impl; [|exact H]. auto.
  - f_equal. apply map_same_snd. eapply Forall_impl; [|exact H]. auto.
  - rewrite H. destruct p as [e2|]; [|reflexivity]. rewrite (H0 _ eq_refl). reflexivity.
  - destruct (is_name a l) as [[g n]|] eqn:E.
    { destruct (on && _); [|reflexivity]. destruct a; try discriminate. destruct l; try discriminate. injection E as -> ->. reflexivity. }
    rewrite H. f_equal. apply map_same_snd. eapply Forall_impl; [|exact H0]. auto.
Qed.
Lemma sub_none k on e : sub k None on e = e. Proof. apply sub_none_both. Qed.

(** ** Related results *)
Definition same (v w : value) : Prop := erase v = erase w.
(** what the first run finds under the names [S], the second finds too *)
Definition finds (S : str -> Prop) (l l' : list (str * value)) : Prop :=
  forall n v, S n -> assoc n l = Some v -> exists w, assoc n l' = Some w /\ same v w.
(** what of [D] is undefined in the first is undefined in the second *)
Definition free (D : str -> Prop) (l l' : list (str * value)) : Prop := forall n, D n -> assoc n l = None -> assoc n l' = None.
Definition erase_pairs (l : list (str * value)) : list (str * value) := map (fun p => match p with (f, v) => (f, erase v) end) l.

Lemma same_refl v : same v v. Proof. reflexivity. Qed.
Lemma same_arr a w : same (VArr a) w -> exists b, w = VArr b /\ arr_inner_type a = arr_inner_type b /\ map erase (arr_values a) = map erase (arr_values b).
Proof. destruct a as [i t vs]. unfold same. intros E. destruct w as [| | | | |[j u ws]|[]|[]]; cbn in E; try discriminate. injection E as -> E. eexists. eauto. Qed.
Lemma same_tup a w : same (VTup a) w -> exists b, w = VTup b /\ map erase (tup_values a) = map erase (tup_values b).
Proof. destruct a as [i t vs]. unfold same. intros E. destruct w as [| | | | |[]|[j u ws]|[]]; cbn in E; try discriminate. injection E as -> E. eexists. eauto. Qed.
Lemma same_obj o w : same (VObj o) w -> exists p, w = VObj p /\ erase_pairs (obj_pairs o) = erase_pairs (obj_pairs p) /\ erase_obj o = erase_obj p.
Proof. destruct o as [i ps par]. unfold same. intros E. destruct w as [| | | | |[]|[]|[j qs q]]; cbn in E; try discriminate. exists (MkObj j qs q). split; [reflexivity|]. injection E as E1 E2. cbn [obj_pairs]. split; [exact E1|]. cbn [erase_obj]. f_equal; assumption. Qed.
Lemma assoc_erase n l : assoc n (erase_pairs l) = option_map erase (assoc n l).
Proof. induction l as [|[f v] l IH]; [reflexivity|]. cbn. destruct (str_eqb f n); [reflexivity|exact IH]. Qed.
Lemma erase_pairs_names l : map fst (erase_pairs l) = map fst l.
Proof. induction l as [|[f v] l IH]; [reflexivity|]. cbn. f_equal. exact IH. Qed.
Lemma erase_pairs_app l l' : erase_pairs (l ++ l') = erase_pairs l ++ erase_pairs l'.
Proof. apply map_app. Qed.
Lemma finds_erase S l l' : erase_pairs l = erase_pairs l' -> finds S l l'.
Proof.
  intros E n v _ A. pose proof (assoc_erase n l) as A1. pose proof (assoc_erase n l') as A2. rewrite E, A2, A in A1. cbn in A1.
  destruct (assoc n l'); [|discriminate]. injection A1 as A1. exists v0. split; auto. symmetry. exact A1.
Qed.
Lemma finds_weaken (S S' : str -> Prop) l l' : (forall n, S' n -> S n) -> finds S l l' -> finds S' l l'.
Proof. intros H F n v Hn. apply F; auto. Qed.
Lemma same_index vs ws i v : map erase vs = map erase ws -> ev_index vs i = Some v -> exists w, ev_index ws i = Some w /\ same v w.
Proof.
  intros E. unfold ev_index. destruct i; try discriminate. destruct (_ && _); [|discriminate]. intros A.
  apply (map_nth_error erase) in A. rewrite E in A. rewrite nth_error_map in A. destruct (nth_error ws _); [|discriminate].
  injection A as A. eexists. split; [reflexivity|]. symmetry. exact A.
Qed.
Lemma op_value_erase op v w : op_value op (erase v) (erase w) = op_value op v w.
Proof. destruct v as [| | | | |[]|[]|[]]; try reflexivity; destruct w as [| | | | |[]|[]|[]]; reflexivity. Qed.
Lemma un_value_erase op v : un_value op (erase v) = un_value op v.
Proof. destruct v as [| | | | |[]|[]|[]]; reflexivity. Qed.
Lemma index_erase vs i : ev_index vs (erase i) = ev_index vs i.
Proof. destruct i as [| | | | |[]|[]|[]]; reflexivity. Qed.
Lemma same_types vs ws : map erase vs = map erase ws -> map get_type vs = map get_type ws.
Proof.
  intros E. rewrite (map_ext get_type (fun v => get_type (erase v)) (fun v => eq_sym (get_type_erase v)) vs),
    (map_ext get_type (fun v => get_type (erase v)) (fun v => eq_sym (get_type_erase v)) ws).
  rewrite <- !(map_map erase get_type). congruence.
Qed.

Section Rel.
Variables inc inc' : inc_ty -> str -> ES value.
Variable lim : N -> bool.
(** [ge d d']: the second run may be at depth [d'] where the first is at [d] *)
Variable ge : N -> N -> Prop.
Hypothesis ge_succ : forall d d', ge d d' -> ge (d + 1) (d' + 1).
Hypothesis lim_down : forall d d', ge d d' -> lim d = true -> lim d' = true.
Variables S D : str -> Prop.
(** something else that stays true of the two lists of globals *)
Variable also : list (str * value) -> list (str * value) -> Prop.
Hypothesis also_def : forall f v v' x y x' y', also x y -> assoc f x = None -> assoc f y = None -> also x' y' -> also ((f, v) :: x') ((f, v') :: y').

Definition inv (l l' : list (str * value)) : Prop := finds S l l' /\ free D l l' /\ also l l'.
Definition rel {A} (Q : A -> A -> Prop) (m m' : ES A) : Prop := forall x y a x',
  inv (fst x) (fst y) -> m x = Some (a, x') ->
  exists a' y', m' y = Some (a', y') /\ Q a a' /\ inv (fst x') (fst y').

Lemma rel_ret {A} (Q : A -> A -> Prop) a a' : Q a a' -> rel Q (eret a) (eret a').
Proof. intros H x y b x' F E. inversion E; subst. exists a', y. auto. Qed.
Lemma rel_fail {A} (Q : A -> A -> Prop) m : rel Q efail m.
Proof. intros x y b x' F E. discriminate. Qed.
Lemma rel_lift {A} (Q : A -> A -> Prop) o o' : (forall a, o = Some a -> exists a', o' = Some a' /\ Q a a') -> rel Q (elift o) (elift o').
Proof. destruct o as [a|]; intros H; [|apply rel_fail]. destruct (H a eq_refl) as (a' & -> & K). apply rel_ret; auto. Qed.
Lemma rel_bind {A B} (Q : A -> A -> Prop) (Q' : B -> B -> Prop) m m' f f' :
  rel Q m m' -> (forall a a', Q a a' -> rel Q' (f a) (f' a')) -> rel Q' (ebind m f) (ebind m' f').
Proof.
  intros Hm Hf x y b z F E. apply ebind_some in E as (a & x1 & E1 & E2).
  destruct (Hm _ _ _ _ F E1) as (a' & y1 & E1' & Qa & F1).
  destruct (Hf _ _ Qa _ _ _ _ F1 E2) as (b' & y2 & E2' & Qb & F2).
  exists b', y2. split; [|auto]. unfold ebind. rewrite E1'. exact E2'.
Qed.
Lemma rel_fresh : rel (fun _ _ => True) fresh fresh.
Proof. intros [gl sh] [gl' sh'] i x' F E. injection E as <- <-. eexists. eexists. split; [reflexivity|]. auto. Qed.
Lemma rel_sent k k' : rel (fun o p => same (VObj o) (VObj p)) (esentinel k) (esentinel k').
Proof.
  intros [gl sh] [gl' sh'] o x' F E. unfold esentinel in *. cbn [snd fst] in *.
  assert (E' : exists i, o = obj_empty i /\ fst x' = gl) by (destruct (g_sent (sh_g sh) k); inversion E; subst; eauto).
  destruct E' as (i & -> & Ex). rewrite Ex. destruct (g_sent (sh_g sh') k'); eexists; eexists; (split; [reflexivity|]); (split; [reflexivity|auto]).
Qed.
Lemma rel_emap {A B C} (f : B -> ES value) (f' : C -> ES value) (h : A -> B) (h' : A -> C) l : Forall (fun a => rel same (f (h a)) (f' (h' a))) l ->
  rel (fun vs ws => map erase vs = map erase ws) (emap f (map h l)) (emap f' (map h' l)).
Proof.
  induction 1 as [|a l Ha Hl IH]; cbn [emap map]; [apply rel_ret; reflexivity|].
  eapply rel_bind; [exact Ha|]. intros b b' Qb. eapply rel_bind; [exact IH|]. intros bs bs' Qs. apply rel_ret. cbn. congruence.
Qed.
Definition same_ops (l l' : list (binop * value)) : Prop := Forall2 (fun p q => fst p = fst q /\ same (snd p) (snd q)) l l'.
Lemma rel_emap_op (f f' : atom -> ES value) (h h' : atom -> atom) (l : list (binop * atom)) : Forall (fun a => rel same (f (h (snd a))) (f' (h' (snd a)))) l ->
  rel same_ops (emap (fun x => match x with (op, b) => do w <- f b;; eret (op, w) end) (map (fun p => match p with (op, c) => (op, h c) end) l))
               (emap (fun x => match x with (op, b) => do w <- f' b;; eret (op, w) end) (map (fun p => match p with (op, c) => (op, h' c) end) l)).
Proof.
  induction 1 as [|[op a] l Ha Hl IH]; cbn [emap map]; [apply rel_ret; constructor|]. cbn [snd] in Ha.
  eapply rel_bind with (Q := fun p q : binop * value => fst p = fst q /\ same (snd p) (snd q)).
  - eapply rel_bind; [exact Ha|]. intros b b' Qb. apply rel_ret. auto.
  - intros p q Qp. eapply rel_bind; [exact IH|]. intros bs bs' Qs. apply rel_ret. constructor; auto.
Qed.
Lemma rel_deep {A} (Q : A -> A -> Prop) d d' m m' : ge d d' -> rel Q m m' -> rel Q (deep lim d m) (deep lim d' m').
Proof. intros L H. unfold deep. destruct (lim d) eqn:E; [|apply rel_fail]. rewrite (lim_down d d' L E). exact H. Qed.
Lemma rel_name fields fields' (g : bool) (n : str) : finds (fun k => k = key g n) fields fields' ->
  (g = true -> S (c_at :: n)) -> rel same (ev_name fields g n) (ev_name fields' g n).
Proof.
  intros Hf Hs. unfold ev_name. destruct g.
  - intros x y a x' F E. unfold ebind, eglobals in *. apply elift_some in E as [E ->]. pose proof (proj1 F) as F1.
    destruct (F1 _ _ (Hs eq_refl) E) as (w & A & Q). rewrite A. exists w, y. auto.
  - destruct (assoc n constants); [apply rel_ret; apply same_refl|]. destruct (assoc n keywords).
    + eapply rel_bind; [apply rel_sent|]. intros o p Q. apply rel_ret. exact Q.
    + apply rel_lift. intros a A. apply (Hf n a eq_refl A).
Qed.
Lemma rel_opv op v v' w w' : same v v' -> same w w' -> rel same (elift (op_value op v w)) (elift (op_value op v' w')).
Proof.
  intros Hv Hw. apply rel_lift. intros a E. exists a. split; [|apply same_refl].
  rewrite <- op_value_erase, <- Hv, <- Hw, op_value_erase. exact E.
Qed.
Lemma rel_op op v v' w w' : same v v' -> same w w' -> rel same (ev_op op v w) (ev_op op v' w').
Proof.
  intros Hv Hw. pose proof (rel_opv op v v' w w' Hv Hw) as L. unfold ev_op.
  assert (Z : (exists a b, op = BPlus /\ v = VArr a /\ w = VArr b) \/
    ((match op, v, w with BPlus, VArr _, VArr _ => False | _, _, _ => True end) /\ (match op, v', w' with BPlus, VArr _, VArr _ => False | _, _, _ => True end))).
  { destruct op; try (right; split; exact I).
    destruct v as [| | | | |[]|[]|[]], v' as [| | | | |[]|[]|[]]; try discriminate Hv; try (right; split; exact I);
      destruct w as [| | | | |[]|[]|[]], w' as [| | | | |[]|[]|[]]; try discriminate Hw; try (right; split; exact I). left. eauto. }
  destruct Z as [(a & b & -> & -> & ->)|[Z1 Z2]].
  - apply same_arr in Hv as (a' & -> & Ta & Va). apply same_arr in Hw as (b' & -> & Tb & Vb). rewrite <- Ta, <- Tb.
    destruct (most_specific _ _) as [[t c]|]; [|apply rel_fail]. eapply rel_bind; [apply rel_fresh|]. intros i j _.
    apply rel_ret. unfold same. cbn. rewrite !map_app, Va, Vb. reflexivity.
  - destruct op; try exact L. destruct v; try (destruct v'; try exact L; destruct w'; try exact L; contradiction).
    destruct w; try contradiction; destruct v'; try exact L; destruct w'; try exact L; contradiction.
Qed.
Definition same_acc (a b : option (value * binop)) : Prop :=
  match a, b with Some (v, op), Some (w, op') => same v w /\ op = op' | None, None => True | _, _ => False end.
Lemma rel_add acc acc' cur cur' : same_acc acc acc' -> same cur cur' -> rel same (add_up acc cur) (add_up acc' cur').
Proof.
  destruct acc as [[v op]|], acc' as [[v' op']|]; cbn; try contradiction.
  - intros [H ->] K. apply rel_op; auto.
  - intros _ K. apply rel_ret; auto.
Qed.
Lemma rel_chain l l' : same_ops l l' -> forall acc acc' cur cur', same_acc acc acc' -> same cur cur' ->
  rel same (ev_chain acc cur l) (ev_chain acc' cur' l').
Proof.
  induction 1 as [|[op v] [op' v'] l l' [Ho Hv] Hl IH]; intros acc acc' cur cur' Ha Hc; cbn [ev_chain]; [apply rel_add; auto|].
  cbn [fst snd] in *. subst op'. destruct (is_priority op).
  - eapply rel_bind; [apply rel_opv; eauto|]. intros; apply IH; auto.
  - eapply rel_bind; [apply rel_add; eauto|]. intros; apply IH; auto. split; auto.
Qed.
Lemma kind_is_global f : kind_of_item f = KGlobal -> global_name f = true.
Proof. intros H. apply kind_global in H as (f' & ->). reflexivity. Qed.

(** items *)
Definition same_result (fields fields' : list pair_t) (r r' : list pair_t * option obj) : Prop :=
  exists new new', fst r = fields ++ new /\ fst r' = fields' ++ new' /\ erase_pairs new = erase_pairs new' /\
    option_map erase_obj (snd r) = option_map erase_obj (snd r').
Lemma finds_snoc F fields fields' f v v' : finds F fields fields' -> same v v' -> ~ In f (map fst fields') ->
  finds F (fields ++ [(f, v)]) (fields' ++ [(f, v')]).
Proof.
  intros H Sv Nf n w Hn A. destruct (assoc n fields) as [u|] eqn:An.
  - rewrite (assoc_app_l _ _ _ _ An) in A. injection A as <-. destruct (H n u Hn An) as (u' & A' & Q).
    exists u'. split; auto. apply assoc_app_l. exact A'.
  - rewrite assoc_app_r in A by (intros X; apply in_map_iff in X as ([k q] & <- & X); clear - X An; induction fields as [|[k' q'] l IH]; [destruct X|]; cbn [assoc fst] in *;
      destruct (str_eqb_spec k' k); [discriminate|]; destruct X as [X|X]; [inversion X; congruence|auto]).
    cbn in A. destruct (str_eqb_spec f n) as [<-|]; [|discriminate]. injection A as <-. exists v'. split; auto.
    rewrite assoc_app_r by exact Nf. cbn. rewrite str_eqb_refl. reflexivity.
Qed.
Lemma flat_in {A B} (f : A -> list B) l (P : B -> Prop) : (forall b, In b (flat_map f l) -> P b) -> Forall (fun a => forall b, In b (f a) -> P b) l.
Proof. intros H. apply Forall_forall. intros a Ia b Ib. apply H. apply in_flat_map. eauto. Qed.
Lemma rel_single (Q : value -> value -> Prop) lim' d d' fields fields' a a' : rel Q (ev_atom inc lim d fields a) (ev_atom inc' lim' d' fields' a') ->
  rel Q (ev_expr inc lim d fields (Ex a [])) (ev_expr inc' lim' d' fields' (Ex a' [])).
Proof.
  intros R x y r z Fx E. rewrite ev_atom_expr in E. destruct (R _ _ _ _ Fx E) as (r' & y' & E' & K). exists r', y'. rewrite ev_atom_expr. auto.
Qed.
(** two lists of items with the same names *)
Definition left (p : str * (expr * expr)) : str * expr := (fst p, fst (snd p)).
Definition right (p : str * (expr * expr)) : str * expr := (fst p, snd (snd p)).
Lemma rel_items (F : str -> Prop) (J : list pair_t -> list pair_t -> Prop) (ev ev' : list pair_t -> expr -> ES value) (l : list (str * (expr * expr))) :
  (forall fl fl' f v v', J fl fl' -> ~ In f (map fst fl) -> ~ In f (map fst fl') -> J (fl ++ [(f, v)]) (fl' ++ [(f, v')])) ->
  Forall (fun p => forall fields fields', finds F fields fields' -> J fields fields' -> rel same (ev fields (fst (snd p))) (ev' fields' (snd (snd p)))) l ->
  (forall f, In f (map fst l) -> global_name f = true -> D f) ->
  forall fields fields' parent parent', finds F fields fields' -> J fields fields' ->
  (forall f, In f (map fst l) -> In f (map fst fields') -> In f (map fst fields)) ->
  option_map erase_obj parent = option_map erase_obj parent' ->
  rel (same_result fields fields') (ev_items ev (map left l) fields parent) (ev_items ev' (map right l) fields' parent').
Proof.
  intros Jsnoc.
  induction 1 as [|[f [e e']] its He Hits IH]; intros HD fields fields' parent parent' Hf Hj Hn Hp.
  { apply rel_ret. exists [], []. rewrite !app_nil_r. auto. }
  cbn [map left right fst snd] in *. change (left (f, (e, e'))) with (f, e). change (right (f, (e, e'))) with (f, e'). rewrite !ev_items_cons.
  destruct (kind_of_item f) eqn:K.
  - intros x y r z Fx E. unfold ebind at 1, eglobals in E. unfold ebind at 1, eglobals. pose proof Fx as (_ & Gx & Ix).
    destruct (assoc f (fst x)) eqn:A; [discriminate|]. pose proof (Gx f (HD f (or_introl eq_refl) (kind_is_global f K)) A) as A'. rewrite A'.
    revert E. apply rel_bind with (Q := same); [apply He; auto| |exact Fx]. intros v v' Sv.
    intros x0 y0 r0 z0 (F1 & F2 & F3) E. unfold ebind, edefine in E. cbn [fst snd] in E. unfold ebind, edefine. cbn [fst snd].
    eapply (IH (fun g X => HD g (or_intror X)) fields fields' parent parent'); eauto; cbn [fst].
    + intros g X Y. apply Hn; auto. right; auto.
    + split; [|split].
      * intros n w Hn' B. cbn [assoc] in *. destruct (str_eqb f n); [injection B as <-; eauto|]. apply F1; auto.
      * intros n Dn B. cbn [assoc] in *. destruct (str_eqb f n); [discriminate|]. apply F2; auto.
      * eapply (also_def f v v' (fst x) (fst y)); auto.
  - destruct parent as [q|].
    { apply rel_fail. }
    destruct parent' as [q|]; [discriminate|]. eapply rel_bind; [apply He; eauto|]. intros v v' Sv.
    destruct v as [| | | | |a|t|o]; try apply rel_fail. apply same_obj in Sv as (p & -> & _ & Eo).
    apply IH; auto; [intros g X; apply HD; right; auto|intros g X; apply Hn; right; auto|cbn; congruence].
  - destruct (mem_str f (map fst fields)) eqn:M; [apply rel_fail|].
    assert (Nf : ~ In f (map fst fields')).
    { intros X. apply (Hn f (or_introl eq_refl)) in X. apply mem_str_iff in X. congruence. }
    assert (Nf' : ~ In f (map fst fields)).
    { intros X. apply mem_str_iff in X. congruence. }
    destruct (mem_str f (map fst fields')) eqn:M'; [apply mem_str_iff in M'; contradiction|].
    eapply rel_bind; [apply He; eauto|]. intros v v' Sv x y r z Fx E.
    destruct (IH (fun g X => HD g (or_intror X)) (fields ++ [(f, v)]) (fields' ++ [(f, v')]) parent parent') with (x := x) (y := y) (a := r) (x' := z)
      as (r' & y' & E' & (new & new' & E1 & E2 & E3 & E4) & F'); auto using finds_snoc.
    + intros g X. rewrite !map_app. cbn. rewrite !in_app_iff. intros [Y|Y]; auto. left. apply Hn; auto. right; auto.
    + exists r', y'. split; [exact E'|]. split; [|auto]. exists ((f, v) :: new), ((f, v') :: new').
      rewrite <- app_assoc in E1, E2. split; [exact E1|]. split; [exact E2|]. split; [|exact E4]. cbn. unfold same in Sv. rewrite Sv. f_equal. exact E3.
  - apply rel_fail.
Qed.

(** ** All of an evaluation *)
Variable k : str.
Variables b b' : option expr.
(** what is true of the fields where [k] is replaced *)
Variable J : list pair_t -> list pair_t -> Prop.
Hypothesis J_snoc : forall fl fl' f v v', J fl fl' -> ~ In f (map fst fl) -> ~ In f (map fst fl') -> J (fl ++ [(f, v)]) (fl' ++ [(f, v')]).
Hypothesis J_glob : global_name k = true -> forall fl fl', J fl fl'.
Hypothesis replaced : forall g n d d' fields fields', hits k g n = true -> J fields fields' -> ge d d' ->
  rel same (ev_expr inc lim d fields (whole b g n)) (ev_expr inc' lim d' fields' (whole b' g n)) /\
  rel same (ev_atom inc lim d fields (operand b g n)) (ev_atom inc' lim d' fields' (operand b' g n)).
Notation ok_expr e := (plain e = true -> (forall n, In n (reads e) -> global_name n = true -> S n) -> (forall n, In n (defines e) -> D n) ->
     forall on d d' fields fields', ge d d' -> finds (fun n => In n (reads e)) fields fields' -> (on = true -> J fields fields') ->
     rel same (ev_expr inc lim d fields (sub k b on e)) (ev_expr inc' lim d' fields' (sub k b' on e))).
Lemma rel_ev :
  (forall a, plain_atom a = true -> (forall n, In n (reads_atom a) -> global_name n = true -> S n) -> (forall n, In n (defines_atom a) -> D n) ->
     forall on d d' fields fields', ge d d' -> finds (fun n => In n (reads_atom a)) fields fields' -> (on = true -> J fields fields') ->
     rel same (ev_atom inc lim d fields (sub_atom k b on a)) (ev_atom inc' lim d' fields' (sub_atom k b' on a))) /\
  (forall e, ok_expr e).
Proof.
  assert (List : forall es, Forall (fun e => ok_expr e) es ->
    forallb plain es = true -> (forall n, In n (flat_map reads es) -> global_name n = true -> S n) -> (forall n, In n (flat_map defines es) -> D n) ->
    forall on d d' fields fields', ge d d' -> finds (fun n => In n (flat_map reads es)) fields fields' -> (on = true -> J fields fields') ->
    Forall (fun e => rel same (ev_expr inc lim d fields (sub k b on e)) (ev_expr inc' lim d' fields' (sub k b' on e))) es).
  { intros es IH P HS HD on d d' fields fields' L Hf Hj. rewrite forallb_forall in P. rewrite Forall_forall in *. intros e Ie.
    apply IH; auto.
    - intros n X. apply HS. apply in_flat_map. eauto.
    - intros n X. apply HD. apply in_flat_map. eauto.
    - eapply finds_weaken; [|exact Hf]. intros n X. apply in_flat_map. eauto. }
  apply ast_ind.
  - intros w _ _ _ on d d' fields fields' L Hf _. apply rel_lift. intros a E. exists a. split; [exact E|apply same_refl].
  - intros cs _ _ _ on d d' fields fields' L Hf _. apply rel_lift. intros a E. exists a. split; [exact E|apply same_refl].
  - intros g n _ HS _ on d d' fields fields' L Hf Hj. cbn [reads_atom In sub_atom] in *.
    destruct (on && hits k g n) eqn:E.
    { apply andb_true_iff in E as [-> E]. apply replaced; auto. }
    apply rel_name.
    + eapply finds_weaken; [|exact Hf]. intros m ->. auto.
    + intros ->. apply HS; auto.
  - intros g n c IH P HS HD on d d' fields fields' L Hf _. cbn [reads_atom In plain_atom defines_atom sub_atom] in *. rewrite !ev_dot.
    assert (IH' : forall fl fl', finds (fun n => In n (reads_atom c)) fl fl' -> rel same (ev_atom inc lim (d + 1) fl c) (ev_atom inc' lim (d' + 1) fl' c)).
    { intros fl fl' Hl. pose proof (IH P (fun m X => HS m (or_intror X)) HD false (d + 1) (d' + 1) fl fl' (ge_succ _ _ L) Hl ltac:(discriminate)) as R.
      rewrite !(proj1 (sub_off_both k _) c) in R. exact R. }
    assert (Hsub : finds (fun n => In n (reads_atom c)) fields fields') by (eapply finds_weaken; [|exact Hf]; cbn; auto).
    eapply rel_bind.
    { apply rel_name; [eapply finds_weaken; [|exact Hf]; intros m ->; auto|]. intros ->. apply HS; auto. }
    intros v v' Sv. destruct v as [| | | | |a|t|o]; try apply rel_fail.
    + apply same_arr in Sv as (b0 & -> & _ & Vb). eapply rel_bind; [apply IH'; exact Hsub|]. intros i j Sij. apply rel_lift. intros w A.
      rewrite <- index_erase, <- Sij, index_erase. eapply same_index; eauto.
    + apply same_tup in Sv as (b0 & -> & Vb). eapply rel_bind; [apply IH'; exact Hsub|]. intros i j Sij. apply rel_lift. intros w A.
      rewrite <- index_erase, <- Sij, index_erase. eapply same_index; eauto.
    + apply same_obj in Sv as (p & -> & Ep & _). destruct c; try apply rel_fail; destruct glob; try apply rel_fail; apply IH'; apply finds_erase; exact Ep.
  - intros op a IH P HS HD on d d' fields fields' L Hf Hj. rewrite !sub_un, !ev_un. eapply rel_bind; [apply IH; eauto|].
    intros v v' Sv. apply rel_lift. intros w E. exists w. split; [|apply same_refl]. rewrite <- un_value_erase, <- Sv, un_value_erase. exact E.
  - intros es IH P HS HD on d d' fields fields' L Hf Hj. rewrite !sub_arr, !ev_arr. apply rel_deep; [auto|]. eapply rel_bind.
    { apply rel_emap. apply (List es IH P HS HD); [auto|exact Hf|exact Hj]. }
    intros vs ws E. rewrite (same_types _ _ E). destruct (lub _); [|apply rel_fail]. eapply rel_bind; [apply rel_fresh|].
    intros i j _. apply rel_ret. unfold same. cbn. congruence.
  - intros es IH P HS HD on d d' fields fields' L Hf Hj. rewrite !sub_tup, !ev_tup. apply rel_deep; [auto|]. eapply rel_bind.
    { apply rel_emap. apply (List es IH P HS HD); [auto|exact Hf|exact Hj]. }
    intros vs ws E. eapply rel_bind; [apply rel_fresh|].
    intros i j _. apply rel_ret. unfold same. cbn. rewrite (same_types _ _ E). congruence.
  - intros its IH P HS HD on d d' fields fields' L Hf Hj. rewrite !sub_obj, !ev_obj. apply rel_deep; [auto|].
    cbn [plain_atom reads_atom defines_atom] in *. eapply rel_bind.
    { set (pr := fun p : str * expr => (fst p, (sub k b (on && global_name k) (snd p), sub k b' (on && global_name k) (snd p)))).
      replace (map (fun p : str * expr => let (f, e) := p in (f, sub k b (on && global_name k) e)) its) with (map left (map pr its))
        by (rewrite map_map; apply map_ext; intros []; reflexivity).
      replace (map (fun p : str * expr => let (f, e) := p in (f, sub k b' (on && global_name k) e)) its) with (map right (map pr its))
        by (rewrite map_map; apply map_ext; intros []; reflexivity).
      assert (Names : forall f, In f (map fst (map pr its)) -> In f (map fst its)) by (intros f; rewrite map_map; auto).
      apply rel_items with (F := fun _ => True) (J := fun _ _ => True); auto.
      - rewrite forallb_forall in P. rewrite Forall_forall in *. intros q Iq fl fl' Hl _. apply in_map_iff in Iq as ([f e] & <- & Ip).
        unfold pr. cbn [fst snd]. apply (IH _ Ip).
        + apply (P _ Ip).
        + intros n X G. apply HS; auto. apply filter_In. split; auto. apply in_flat_map. exists (f, e). auto.
        + intros n X. apply HD. apply in_flat_map. exists (f, e). split; auto. apply in_or_app. auto.
        + auto.
        + eapply finds_weaken; [|exact Hl]. intros m _. exact I.
        + intros E. apply andb_true_iff in E as [_ E]. apply J_glob; auto.
      - intros f X G. apply Names in X. apply in_map_iff in X as ([f' e] & <- & X). apply HD. apply in_flat_map. exists (f', e). split; auto.
        cbn [fst] in G. rewrite G. apply in_or_app. left. cbn. auto.
      - intros n v _ A. discriminate. }
    intros [ps par] [ps' par'] (new & new' & E1 & E2 & E3 & E4). cbn [fst snd app] in *. subst new new'.
    eapply rel_bind; [apply rel_fresh|]. intros i j _. apply rel_ret. unfold same. cbn [erase erase_obj]. do 2 f_equal; [exact E3|exact E4].
  - intros e p _ _ P. discriminate.
  - intros a l IHa IHl P HS HD on d d' fields fields' L Hf Hj. cbn [plain reads defines] in *. apply andb_true_iff in P as [Pa Pl].
    rewrite !sub_Ex. destruct (is_name a l) as [[g n]|] eqn:En.
    { destruct a; try discriminate. destruct l; try discriminate. injection En as -> ->.
      destruct (on && hits k g n) eqn:E.
      - apply andb_true_iff in E as [-> E]. apply replaced; auto.
      - apply rel_single. cbn in HS, Hf. apply rel_name.
        + eapply finds_weaken; [|exact Hf]. intros m ->. auto.
        + intros ->. apply HS; auto. }
    rewrite !ev_expr_Ex. eapply rel_bind.
    { apply IHa; eauto.
      - intros n X. apply HS. apply in_or_app. auto.
      - intros n X. apply HD. apply in_or_app. auto.
      - eapply finds_weaken; [|exact Hf]. intros n X. apply in_or_app. auto. }
    intros v v' Sv. eapply rel_bind.
    { apply rel_emap_op with (f := ev_atom inc lim d fields) (f' := ev_atom inc' lim d' fields') (h := sub_atom k b on) (h' := sub_atom k b' on).
      rewrite forallb_forall in Pl. rewrite Forall_forall in *. intros [op c] Ib. cbn [snd]. apply (IHl _ Ib); auto.
      - apply (Pl _ Ib).
      - intros n X. apply HS. apply in_or_app. right. apply in_flat_map. exists (op, c). auto.
      - intros n X. apply HD. apply in_or_app. right. apply in_flat_map. exists (op, c). auto.
      - eapply finds_weaken; [|exact Hf]. intros n X. apply in_or_app. right. apply in_flat_map. exists (op, c). auto. }
    intros vs ws Sw. apply rel_chain; auto. exact I.
Qed.
(** Items, after different beginnings; in those marked [true], the name is replaced. *)
Definition with_sub (r : option expr) (its : list (bool * (str * expr))) : list (str * expr) :=
  map (fun p => match p with (on, (f, e)) => (f, sub k r on e) end) its.
Lemma rel_some_items (its : list (bool * (str * expr))) d d' fields fields' parent parent' : item_plain (map snd its) = true -> ge d d' ->
  (forall n, In n (item_reads (map snd its)) -> global_name n = true -> S n) -> (forall n, In n (item_defines (map snd its)) -> D n) ->
  finds (fun n => In n (item_reads (map snd its))) fields fields' -> J fields fields' \/ Forall (fun p => fst p = false) its ->
  (forall f, In f (map fst (map snd its)) -> In f (map fst fields') -> In f (map fst fields)) ->
  option_map erase_obj parent = option_map erase_obj parent' ->
  rel (same_result fields fields') (ev_items (ev_expr inc lim d) (with_sub b its) fields parent) (ev_items (ev_expr inc' lim d') (with_sub b' its) fields' parent').
Proof.
  intros P L HS HD Hf Hj Hn Hp.
  set (pr := fun p : bool * (str * expr) => (fst (snd p), (sub k b (fst p) (snd (snd p)), sub k b' (fst p) (snd (snd p))))).
  assert (E1 : with_sub b its = map left (map pr its)) by (unfold with_sub; rewrite map_map; apply map_ext; intros [? []]; reflexivity).
  assert (E2 : with_sub b' its = map right (map pr its)) by (unfold with_sub; rewrite map_map; apply map_ext; intros [? []]; reflexivity).
  rewrite E1, E2. assert (Names : forall f, In f (map fst (map pr its)) -> In f (map fst (map snd its))) by (intros f; rewrite !map_map; auto).
  apply rel_items with (F := fun n => In n (item_reads (map snd its))) (J := fun fl fl' => J fl fl' \/ Forall (fun p => fst p = false) its); auto.
  - intros fl fl' f v v' [X|X] N1 N2; auto.
  - unfold item_plain in P. rewrite forallb_forall in P. apply Forall_forall. intros q Iq fl fl' Hl Jl. apply in_map_iff in Iq as ([on [f e]] & <- & Ip).
    pose proof (in_map snd _ _ Ip) as Ip'. cbn [snd] in Ip'. unfold pr. cbn [fst snd]. apply (proj2 rel_ev); auto.
    + apply (P _ Ip').
    + intros n X. apply HS. apply in_flat_map. exists (f, e). auto.
    + intros n X. apply HD. apply in_flat_map. exists (f, e). split; auto. apply in_or_app. auto.
    + eapply finds_weaken; [|exact Hl]. intros n X. apply in_flat_map. exists (f, e). auto.
    + intros ->. destruct Jl as [Jl|Jl]; auto. rewrite Forall_forall in Jl. specialize (Jl _ Ip). discriminate.
  - intros f X G. apply Names in X. apply in_map_iff in X as ([f' e] & <- & X). apply HD. apply in_flat_map. exists (f', e). split; auto.
    cbn [fst] in *. rewrite G. apply in_or_app. left. cbn. auto.
Qed.
End Rel.

(** Nothing is replaced. *)
Lemma rel_all_items inc inc' lim (ge : N -> N -> Prop) (S D : str -> Prop) its d d' fields fields' parent parent' : (forall d d', ge d d' -> ge (d + 1) (d' + 1)) -> (forall d d', ge d d' -> lim d = true -> lim d' = true) ->
  item_plain its = true -> ge d d' ->
  (forall n, In n (item_reads its) -> global_name n = true -> S n) -> (forall n, In n (item_defines its) -> D n) ->
  finds (fun n => In n (item_reads its)) fields fields' ->
  (forall f, In f (map fst its) -> In f (map fst fields') -> In f (map fst fields)) ->
  option_map erase_obj parent = option_map erase_obj parent' ->
  rel S D (fun _ _ => True) (same_result fields fields') (ev_items (ev_expr inc lim d) its fields parent) (ev_items (ev_expr inc' lim d') its fields' parent').
Proof.
  intros GS LD P L HS HD Hf Hn Hp.
  assert (M : map snd (map (fun p => (false, p)) its) = its) by (rewrite map_map; apply map_id).
  assert (W : with_sub [] None (map (fun p => (false, p)) its) = its).
  { unfold with_sub. rewrite map_map. rewrite <- (map_id its) at 2. apply map_ext. intros [f e]. rewrite sub_none. reflexivity. }
  rewrite <- W at 1. rewrite <- W at 2. apply rel_some_items with (ge := ge) (J := fun _ _ => False); rewrite ?M; auto; try discriminate; try contradiction.
  right. apply Forall_forall. intros q X. apply in_map_iff in X as (p & <- & X). reflexivity.
Qed.
Lemma rel_expr inc inc' lim (ge : N -> N -> Prop) (S D : str -> Prop) e d d' fields fields' : (forall d d', ge d d' -> ge (d + 1) (d' + 1)) -> (forall d d', ge d d' -> lim d = true -> lim d' = true) ->
  plain e = true -> ge d d' ->
  (forall n, In n (reads e) -> global_name n = true -> S n) -> (forall n, In n (defines e) -> D n) ->
  finds (fun n => In n (reads e)) fields fields' ->
  rel S D (fun _ _ => True) same (ev_expr inc lim d fields e) (ev_expr inc' lim d' fields' e).
Proof.
  intros GS LD P L HS HD Hf.
  pose proof (proj2 (rel_ev inc inc' lim ge GS LD S D (fun _ _ => True) (fun _ _ _ _ _ _ _ _ _ _ _ => I) [] None None (fun _ _ => False)
    ltac:(cbn; discriminate) ltac:(contradiction)) e P HS HD false d d' fields fields' L Hf ltac:(discriminate)) as R.
  rewrite sub_off in R. exact R.
Qed.

(** ** Globals that an expression does not define stay as they are *)
Section Frame.
Variable inc : inc_ty -> str -> ES value.
Variable lim : N -> bool.
Hypothesis Hinc : forall k p x v y, inc k p x = Some (v, y) -> fst y = fst x.
Variable D : str -> Prop.
Definition frames {A} (m : ES A) : Prop := forall x a y, m x = Some (a, y) -> forall n, ~ D n -> assoc n (fst y) = assoc n (fst x).
Lemma fr_same {A} (m : ES A) : (forall x a y, m x = Some (a, y) -> fst y = fst x) -> frames m.
Proof. intros H x a y E n _. rewrite (H _ _ _ E). reflexivity. Qed.
Lemma fr_ret {A} (a : A) : frames (eret a).
Proof. apply fr_same. intros x b y E. inversion E; reflexivity. Qed.
Lemma fr_fail {A} : frames (@efail A).
Proof. apply fr_same. discriminate. Qed.
Lemma fr_lift {A} (o : option A) : frames (elift o).
Proof. destruct o; [apply fr_ret|apply fr_fail]. Qed.
Lemma fr_bind {A B} (m : ES A) (f : A -> ES B) : frames m -> (forall a, frames (f a)) -> frames (ebind m f).
Proof. intros Hm Hf x b z E n Hn. apply ebind_some in E as (a & y & E1 & E2). rewrite (Hf _ _ _ _ E2 n Hn). apply (Hm _ _ _ E1 n Hn). Qed.
Lemma fr_fresh : frames fresh.
Proof. apply fr_same. intros [gl sh] i y E. injection E as <- <-. reflexivity. Qed.
Lemma fr_sent k : frames (esentinel k).
Proof. apply fr_same. intros [gl sh] i y E. unfold esentinel in E. cbn [snd] in E. destruct (g_sent _ _); inversion E; reflexivity. Qed.
Lemma fr_globals : frames eglobals.
Proof. apply fr_same. intros x a y E. inversion E; reflexivity. Qed.
Lemma fr_define f v : D f -> frames (edefine f v).
Proof. intros Df x a y E n Hn. inversion E; subst. cbn. destruct (str_eqb_spec f n); [subst; contradiction|reflexivity]. Qed.
Lemma fr_emap {A B} (f : A -> ES B) l : Forall (fun a => frames (f a)) l -> frames (emap f l).
Proof. induction 1 as [|a l Ha Hl IH]; cbn [emap]; [apply fr_ret|]. apply fr_bind; auto. intros b. apply fr_bind; auto. intros. apply fr_ret. Qed.
Lemma fr_deep {A} d (m : ES A) : frames m -> frames (deep lim d m).
Proof. unfold deep. destruct (lim d); auto. intros _. apply fr_fail. Qed.
Lemma fr_name fields g n : frames (ev_name fields g n).
Proof.
  unfold ev_name. destruct g; [apply fr_bind; [apply fr_globals|intros; apply fr_lift]|].
  destruct (assoc n constants); [apply fr_ret|]. destruct (assoc n keywords); [|apply fr_lift].
  apply fr_bind; [apply fr_sent|]. intros. apply fr_ret.
Qed.
Lemma fr_op op v w : frames (ev_op op v w).
Proof.
  unfold ev_op. destruct op; try apply fr_lift. destruct v; try apply fr_lift. destruct w; try apply fr_lift.
  destruct (most_specific _ _) as [[]|]; [|apply fr_fail]. apply fr_bind; [apply fr_fresh|]. intros. apply fr_ret.
Qed.
Lemma fr_chain l : forall acc cur, frames (ev_chain acc cur l).
Proof.
  assert (AU : forall acc cur, frames (add_up acc cur)) by (intros [[s op]|] cur; [apply fr_op|apply fr_ret]).
  induction l as [|[op w] l IH]; intros acc cur; cbn [ev_chain]; auto.
  destruct (is_priority op); apply fr_bind; auto. apply fr_lift.
Qed.
Lemma fr_keyword o ks : frames (ev_keyword o ks).
Proof.
  induction ks as [|k ks IH]; cbn [ev_keyword]; [apply fr_ret|].
  apply fr_bind; [apply fr_sent|]. intros s. destruct (_ =? _); auto. apply fr_ret.
Qed.
Lemma fr_items (ev : list pair_t -> expr -> ES value) its : Forall (fun p => forall fields, frames (ev fields (snd p))) its ->
  (forall f, In f (map fst its) -> global_name f = true -> D f) -> forall fields parent, frames (ev_items ev its fields parent).
Proof.
  induction 1 as [|[f e] its He Hits IH]; intros HD fields parent; [apply fr_ret|]. rewrite ev_items_cons. cbn [snd] in He. cbn [map fst] in HD.
  assert (IH' : forall fields parent, frames (ev_items ev its fields parent)) by (apply IH; intros; apply HD; auto; right; auto).
  destruct (kind_of_item f) eqn:K.
  - apply fr_bind; [apply fr_globals|]. intros g. destruct (assoc f g); [apply fr_fail|]. apply fr_bind; auto. intros v.
    apply fr_bind; auto. apply fr_define. apply HD; [left; auto|apply kind_is_global; auto].
  - destruct parent; [apply fr_fail|]. apply fr_bind; auto. intros []; auto; apply fr_fail.
  - destruct (mem_str _ _); [apply fr_fail|]. apply fr_bind; auto.
  - apply fr_fail.
Qed.
Lemma fr_ev : (forall a, (forall n, In n (defines_atom a) -> D n) -> forall d fields, frames (ev_atom inc lim d fields a)) /\
              (forall e, (forall n, In n (defines e) -> D n) -> forall d fields, frames (ev_expr inc lim d fields e)).
Proof.
  apply ast_ind.
  - intros w _ d fields. apply fr_lift.
  - intros cs _ d fields. apply fr_lift.
  - intros g n _ d fields. apply fr_name.
  - intros g n sub IH HD d fields. cbn [defines_atom] in HD. rewrite ev_dot. apply fr_bind; [apply fr_name|].
    intros v. destruct v; try apply fr_fail.
    + apply fr_bind; auto. intros. apply fr_lift.
    + apply fr_bind; auto. intros. apply fr_lift.
    + destruct sub; try apply fr_fail; destruct glob; try apply fr_fail; apply IH; auto.
  - intros op a IH HD d fields. cbn [defines_atom] in HD. rewrite ev_un. apply fr_bind; auto. intros. apply fr_lift.
  - intros es IH HD d fields. cbn [defines_atom] in HD. apply flat_in in HD. rewrite ev_arr. apply fr_deep, fr_bind.
    + apply fr_emap. rewrite Forall_forall in *. intros e Ie. apply (IH e Ie). apply (HD e Ie).
    + intros vs. destruct (lub _); [|apply fr_fail]. apply fr_bind; [apply fr_fresh|]. intros. apply fr_ret.
  - intros es IH HD d fields. cbn [defines_atom] in HD. apply flat_in in HD. rewrite ev_tup. apply fr_deep, fr_bind.
    + apply fr_emap. rewrite Forall_forall in *. intros e Ie. apply (IH e Ie). apply (HD e Ie).
    + intros vs. apply fr_bind; [apply fr_fresh|]. intros. apply fr_ret.
  - intros its IH HD d fields. cbn [defines_atom] in HD. rewrite ev_obj. apply fr_deep, fr_bind.
    + apply fr_items.
      * rewrite Forall_forall in *. intros [f e] Ip fl. cbn [snd]. apply (IH _ Ip). intros n X. apply HD. apply in_flat_map. exists (f, e). split; auto. apply in_or_app; auto.
      * intros f X G. apply in_map_iff in X as ([f' e] & <- & X). apply HD. apply in_flat_map. exists (f', e). split; auto. cbn [fst] in G. rewrite G. left. reflexivity.
    + intros r. apply fr_bind; [apply fr_fresh|]. intros. apply fr_ret.
  - intros e p IH IH2 HD d fields. cbn [defines_atom] in HD. rewrite ev_inc. apply fr_deep, fr_bind.
    { apply IH. intros n X. apply HD. apply in_or_app. auto. }
    intros v. destruct v; try apply fr_fail.
    + destruct p; [apply fr_fail|apply fr_same; apply Hinc].
    + apply fr_bind; [apply fr_keyword|]. intros [k|]; [|apply fr_fail].
      destruct p as [e2|]; [|apply fr_fail]. apply fr_bind; [apply IH2; auto|].
      * intros n X. apply HD. apply in_or_app. auto.
      * intros v2. destruct v2; try apply fr_fail. apply fr_same. apply Hinc.
  - intros a l IHa IHl HD d fields. cbn [defines] in HD. rewrite ev_expr_Ex. apply fr_bind.
    { apply IHa. intros n X. apply HD. apply in_or_app. auto. }
    intros v. apply fr_bind; [|intros; apply fr_chain].
    apply fr_emap. rewrite Forall_forall in *. intros [op b] Ib. apply fr_bind; [|intros; apply fr_ret].
    apply (IHl _ Ib). intros n X. apply HD. apply in_or_app. right. apply in_flat_map. exists (op, b). auto.
Qed.
Lemma fr_all_items its d fields parent : (forall n, In n (item_defines its) -> D n) -> frames (ev_items (ev_expr inc lim d) its fields parent).
Proof.
  intros HD. apply fr_items.
  - apply Forall_forall. intros [f e] Ip fl. cbn [snd]. apply fr_ev. intros n X. apply HD. apply in_flat_map. exists (f, e). split; auto. apply in_or_app; auto.
  - intros f X G. apply in_map_iff in X as ([f' e] & <- & X). apply HD. apply in_flat_map. exists (f', e). split; auto. cbn [fst] in *. rewrite G. left. reflexivity.
Qed.
End Frame.
