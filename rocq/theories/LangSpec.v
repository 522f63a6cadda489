(** * LangSpec: small independent specifications for the properties of the language
    (PropLang.v), and facts about the evaluation of Syntax.v. *)
From Verif Require Export AgreeTop.
From Coq Require String Zquot.
Import String.StringSyntax.
Open Scope N_scope.

(** ** Operator trees *)
Inductive tree (A : Type) := Leaf (a : A) | Node (op : binop) (l r : tree A).
Arguments Leaf {A} _.
Arguments Node {A} _ _ _.

(** The chain [a0 op1 a1 op2 a2 ..] one reads off a tree from left to right. *)
Fixpoint flat {A} (t : tree A) : A * list (binop * A) :=
  match t with
  | Leaf a => (a, [])
  | Node op l r => (fst (flat l), snd (flat l) ++ (op, fst (flat r)) :: snd (flat r))
  end.

(** * / % bind tighter than + -. *)
Definition tight (op : binop) : Prop := op = BMult \/ op = BDiv \/ op = BMod.
Definition loose (op : binop) : Prop := op = BPlus \/ op = BMinus.
(** The operator at the root, if any. *)
Definition root_op {A} (t : tree A) : option binop :=
  match t with Leaf _ => None | Node op _ _ => Some op end.
(** A tree without parentheses: an argument of an operator never has a root that binds looser, and
    a right argument never one that binds equally (operators associate to the left). *)
Fixpoint paren_free {A} (t : tree A) : Prop :=
  match t with
  | Leaf _ => True
  | Node op l r =>
      paren_free l /\ paren_free r /\
      (tight op -> forall o, root_op l = Some o -> ~ loose o) /\
      (tight op -> root_op r = None) /\
      (loose op -> forall o, root_op r = Some o -> ~ loose o)
  end.

(** The value of a tree of values. *)
Fixpoint tree_value (t : tree value) : ES value :=
  match t with
  | Leaf v => eret v
  | Node op l r => do v <- tree_value l;; do w <- tree_value r;; ev_op op v w
  end.

Lemma tight_dec op : {tight op} + {loose op}.
Proof. unfold tight, loose. destruct op; auto. Defined.
Lemma tight_loose op : tight op -> loose op -> False.
Proof. intros [->|[->| ->]] [E|E]; discriminate. Qed.
Lemma prio_tight op : is_priority op = true <-> tight op.
Proof. unfold tight. destruct op; cbn; split; try tauto; try discriminate; intros [E|[E|E]]; discriminate. Qed.
Lemma prio_loose op : is_priority op = false <-> loose op.
Proof. unfold loose. destruct op; cbn; split; try tauto; try discriminate; intros [E|E]; discriminate. Qed.

Definition nonadd {A} (t : tree A) : Prop := forall o, root_op t = Some o -> ~ loose o.
Lemma nonadd_node {A} op (l r : tree A) : nonadd (Node op l r) -> tight op.
Proof. intros H. destruct (tight_dec op); auto. exfalso. eapply H; eauto. reflexivity. Qed.

Lemma ev_op_tight op v w : tight op -> ev_op op v w = elift (op_value op v w).
Proof. intros [->|[->| ->]]; reflexivity. Qed.

(** The evaluation of Syntax.v on the chain of a tree. *)
Lemma chain_nonadd t : paren_free t -> nonadd t -> forall acc rest x,
  ev_chain acc (fst (flat t)) (snd (flat t) ++ rest) x =
  (do p <- tree_value t;; ev_chain acc p rest) x.
Proof.
  induction t as [v|op l IHl r IHr]; intros Pf Na acc rest x; [reflexivity|].
  pose proof (nonadd_node _ _ _ Na) as T. destruct Pf as (Pl & Pr & P1 & P2 & P3).
  destruct r as [w|]; [|specialize (P2 T); discriminate]. cbn [flat fst snd tree_value].
  rewrite <- app_assoc. cbn [app]. rewrite IHl; auto; [|intros o; auto].
  unfold ebind. destruct (tree_value l x) as [[v y]|]; auto. cbn [ev_chain]. unfold eret at 1.
  rewrite (proj2 (prio_tight op) T), ev_op_tight; auto.
Qed.
Lemma chain_tree t : paren_free t -> forall rest x,
  match rest with [] => True | (op, _) :: _ => loose op end ->
  ev_chain None (fst (flat t)) (snd (flat t) ++ rest) x =
  (do s <- tree_value t;; match rest with [] => eret s | (op, w) :: rest' => ev_chain (Some (s, op)) w rest' end) x.
Proof.
  induction t as [v|op l IHl r IHr]; intros Pf rest x Lr.
  - cbn [flat fst snd tree_value app]. unfold ebind, eret. destruct rest as [|[op w] rest]; [reflexivity|].
    cbn [ev_chain]. rewrite (proj2 (prio_loose op) Lr). reflexivity.
  - destruct (tight_dec op) as [T|L].
    + rewrite chain_nonadd; auto; [|intros o E; inversion E; subst; intros L; eapply tight_loose; eauto].
      unfold ebind. destruct (tree_value _ x) as [[v y]|]; auto.
      destruct rest as [|[op' w] rest]; [reflexivity|]. cbn [ev_chain].
      rewrite (proj2 (prio_loose op') Lr). reflexivity.
    + destruct Pf as (Pl & Pr & P1 & P2 & P3). cbn [flat fst snd tree_value].
      rewrite <- app_assoc. cbn [app]. rewrite IHl; auto.
      unfold ebind at 1 2 3. destruct (tree_value l x) as [[v y]|]; auto.
      rewrite chain_nonadd; auto; [|intros o; auto].
      unfold ebind at 1 2. destruct (tree_value r y) as [[w z]|]; auto.
      destruct rest as [|[op' w'] rest]; cbn [ev_chain add_up].
      * destruct (ev_op op v w z) as [[]|]; reflexivity.
      * rewrite (proj2 (prio_loose op') Lr). reflexivity.
Qed.

(** Each chain has exactly one tree. *)
Lemma all_tight {A} (t : tree A) : paren_free t -> nonadd t -> Forall (fun p => tight (fst p)) (snd (flat t)).
Proof.
  induction t as [v|op l IHl r IHr]; intros Pf Na; [constructor|].
  pose proof (nonadd_node _ _ _ Na) as T. destruct Pf as (Pl & Pr & P1 & P2 & P3).
  destruct r as [w|]; [|specialize (P2 T); discriminate]. cbn [flat fst snd].
  apply Forall_app. split; [apply IHl; auto; intros o; auto|constructor; auto].
Qed.
Lemma flat_inj {A} (t : tree A) : forall t', paren_free t -> paren_free t' -> flat t = flat t' -> t = t'.
Proof.
  assert (SPLIT : forall (l1 l2 r1 r2 : list (binop * A)) p q, l1 ++ p :: r1 = l2 ++ q :: r2 ->
    loose (fst p) -> loose (fst q) -> Forall (fun p => tight (fst p)) r1 -> Forall (fun p => tight (fst p)) r2 ->
    l1 = l2 /\ p = q /\ r1 = r2).
  { induction l1 as [|a l1 IH]; intros [|b l2] r1 r2 p q E L1 L2 F1 F2; cbn in E; injection E as E1 E2; subst; auto.
    - exfalso. apply Forall_app in F1 as [_ F1]. inversion F1; subst. eapply tight_loose; eauto.
    - exfalso. apply Forall_app in F2 as [_ F2]. inversion F2; subst. eapply tight_loose; eauto.
    - destruct (IH l2 r1 r2 p q E2 L1 L2 F1 F2) as (-> & -> & ->). auto. }
  induction t as [v|op l IHl r IHr]; intros [v'|op' l' r'] P P' E.
  - cbn in E. congruence.
  - cbn in E. injection E as _ E. destruct (snd (flat l')); discriminate.
  - cbn in E. injection E as _ E. destruct (snd (flat l)); discriminate.
  - cbn [flat] in E. injection E as E1 E2.
    destruct P as (Pl & Pr & P1 & P2 & P3). destruct P' as (Pl' & Pr' & P1' & P2' & P3').
    destruct (tight_dec op) as [T|L], (tight_dec op') as [T'|L'].
    + destruct r as [w|]; [|specialize (P2 T); discriminate]. destruct r' as [w'|]; [|specialize (P2' T'); discriminate].
      cbn [flat fst snd] in E2. apply app_inj_tail in E2 as [E2 E3]. injection E3 as -> ->.
      f_equal. apply IHl; auto. rewrite (surjective_pairing (flat l)), (surjective_pairing (flat l')). congruence.
    + exfalso. assert (F : Forall (fun p => tight (fst p)) (snd (flat (Node op l r)))).
      { apply all_tight; [repeat split; auto|]. intros o K; inversion K; subst. intros L; eapply tight_loose; eauto. }
      cbn [flat snd] in F. rewrite E2 in F. apply Forall_app in F as [_ F]. inversion F; subst. eapply tight_loose; eauto.
    + exfalso. assert (F : Forall (fun p => tight (fst p)) (snd (flat (Node op' l' r')))).
      { apply all_tight; [repeat split; auto|]. intros o K; inversion K; subst. intros L'; eapply tight_loose; eauto. }
      cbn [flat snd] in F. rewrite <- E2 in F. apply Forall_app in F as [_ F]. inversion F; subst. eapply tight_loose; eauto.
    + apply SPLIT in E2 as (E2 & E3 & E4); auto; try (apply all_tight; auto; intros o; auto).
      injection E3 as -> E3. f_equal.
      * apply IHl; auto. rewrite (surjective_pairing (flat l)), (surjective_pairing (flat l')). congruence.
      * apply IHr; auto. rewrite (surjective_pairing (flat r)), (surjective_pairing (flat r')). congruence.
Qed.
Lemma tree_exists {A} (l : list (binop * A)) : forall a, exists t, paren_free t /\ flat t = (a, l).
Proof.
  induction l as [|[op b] l IH] using rev_ind; intros a.
  - exists (Leaf a). cbn. auto.
  - destruct (IH a) as (t & P & E). destruct (tight_dec op) as [T|L].
    + (* extend the rightmost factor *)
      clear IH. revert a l E P. induction t as [v|op' x IHx y IHy]; intros a l E P.
      * exists (Node op (Leaf v) (Leaf b)). cbn in E. injection E as -> <-. cbn. split; [|reflexivity].
        repeat split; auto; try discriminate.
      * destruct (tight_dec op') as [T'|L'].
        -- exists (Node op (Node op' x y) (Leaf b)). split.
           ++ split; [exact P|]. split; [exact I|]. split; [|split; [reflexivity|discriminate]].
              intros _ o K. cbn in K. injection K as <-. intros L; eapply tight_loose; eauto.
           ++ cbn [flat] in *. injection E as E1 E2. cbn [fst snd]. rewrite E1, E2. reflexivity.
        -- destruct P as (Px & Py & P1 & P2 & P3).
           destruct (IHy (fst (flat y)) (snd (flat y)) (surjective_pairing _) Py) as (y' & Py' & Ey').
           (* the new right argument is not a sum *)
           assert (Ny : nonadd y').
           { intros o K Lo. destruct y' as [|o' y1 y2]; [discriminate|]. cbn in K. injection K as ->.
             assert (F : Forall (fun p => tight (fst p)) (snd (flat (Node o y1 y2)))).
             { rewrite Ey'. cbn [snd]. apply Forall_app. split; [apply all_tight; auto; intros o'; auto|].
               constructor; auto. }
             cbn [flat snd] in F. apply Forall_app in F as [_ F]. inversion F; subst. eapply tight_loose; eauto. }
           exists (Node op' x y'). split.
           ++ split; [exact Px|]. split; [exact Py'|]. split; [|split].
              ** intros T'; exfalso; eapply tight_loose; eauto.
              ** intros T'; exfalso; eapply tight_loose; eauto.
              ** intros _ o K. apply Ny. exact K.
           ++ cbn [flat] in *. injection E as E1 E2. rewrite Ey'. cbn [fst snd]. subst l a.
              rewrite <- app_assoc. reflexivity.
    + exists (Node op t (Leaf b)). split.
      * split; [exact P|]. split; [exact I|]. split; [|split; [reflexivity|discriminate]].
        intros T; exfalso; eapply tight_loose; eauto.
      * cbn [flat]. rewrite E. reflexivity.
Qed.

(** ** A document with one field *)
Section One.
Context `{U : Unicode}.
Variable fs : fsys.

Lemma legal_item f : legal_field f -> item_name f.
Proof.
  intros (c & r & -> & Hc & Hr & _). exists c, r. split; auto. split; [left; exact Hc|].
  eapply Forall_impl; [|exact Hr]. intros d [H|[H|H]]; [left; left|right|left; right]; auto.
Qed.
Lemma letter_neq c : letter c -> c <> 64 /\ c <> 94.
Proof. intros [H| ->]; [apply alpha_range in H; lia|lia]. Qed.
Lemma legal_kind f : legal_field f -> kind_of_item f = KField.
Proof.
  intros (c & r & -> & Hc & Hr & N). destruct (letter_neq c Hc). rewrite kind_letter by auto.
  destruct (mem_str (c :: r) reserved_words) eqn:M; auto. apply mem_str_iff in M. contradiction.
Qed.

Lemma one_doc f e t w : legal_field f -> r_expr e t -> ws w -> r_doc [(f, e)] (f ++ c_colon :: w ++ t).
Proof.
  intros Hf He W. exists [], (f ++ 58 :: w ++ t ++ [] ++ []), []. split; [|split; [constructor|split; [|left; auto]]].
  - cbn [app]. rewrite !app_nil_r. reflexivity.
  - apply (r_icons f e [] w t [] []); auto using legal_item; constructor.
Qed.
(** The meaning of [f: e]. *)
Definition expr_meaning (g : gstate) (e : expr) : option (value * est) :=
  ev_expr (include_meaning fs None) limit64 1 [] e ([], init_sh g).
Definition field_obj (x : est) (f : str) (v : value) : obj := MkObj (g_next (sh_g (snd x))) [(f, v)] None.

Lemma one_meaning lim file sh f e : legal_field f ->
  meaning fs lim file sh [(f, e)] =
  match ev_expr (include_meaning fs file) lim 1 [] e ([], sh) with
  | Some (v, x) => Some (field_obj x f v, snd (match fresh x with Some y => y | None => (0, x) end))
  | None => None
  end.
Proof.
  intros Hf. unfold meaning, ev_doc. cbn [ev_items]. rewrite (legal_kind f Hf). cbn [mem_str map existsb].
  unfold ebind. destruct (ev_expr _ _ _ _ _ _) as [[v [gl sh']]|]; reflexivity.
Qed.
Lemma one_ok g f e t w o : legal_field f -> r_expr e t -> ws w ->
  (from_str fs g (f ++ c_colon :: w ++ t) = Some (OOk o) <->
   exists v x, expr_meaning g e = Some (v, x) /\ o = field_obj x f v).
Proof.
  intros Hf He W. rewrite (str_ok fs g _ _ (one_doc _ _ _ _ Hf He W)). unfold str_meaning.
  rewrite one_meaning by auto. unfold expr_meaning.
  destruct (ev_expr _ _ _ _ _ _) as [[v x]|]; split.
  - intros (y & E). inversion E; subst. eauto.
  - intros (v' & x' & E & ->). inversion E; subst. eauto.
  - intros (y & E). discriminate.
  - intros (v' & x' & E & _). discriminate.
Qed.
Lemma one_err g f e t w : legal_field f -> r_expr e t -> ws w ->
  ((exists er, from_str fs g (f ++ c_colon :: w ++ t) = Some (OErr er)) <-> expr_meaning g e = None).
Proof.
  intros Hf He W. rewrite (str_err fs g _ _ (one_doc _ _ _ _ Hf He W)). unfold str_meaning.
  rewrite one_meaning by auto. unfold expr_meaning.
  destruct (ev_expr _ _ _ _ _ _) as [[v x]|]; split; congruence.
Qed.

(** A lone atom. *)
Lemma atom_expr a t : r_atom a t -> r_expr (Ex a []) t.
Proof. intros H. rewrite <- (app_nil_r t). constructor; auto. constructor. Qed.
Lemma ev_expr_Ex inc lim d fields a l : ev_expr inc lim d fields (Ex a l) =
  (do v <- ev_atom inc lim d fields a;;
   do vs <- emap (fun x => match x with (op, b) => do w <- ev_atom inc lim d fields b;; eret (op, w) end) l;;
   ev_chain None v vs).
Proof. reflexivity. Qed.
Lemma ev_un inc lim d fields op a : ev_atom inc lim d fields (AUn op a) =
  (do v <- ev_atom inc lim (d + 1) fields a;; elift (un_value op v)).
Proof. reflexivity. Qed.
Lemma ev_atom_expr inc lim d fields a x :
  ev_expr inc lim d fields (Ex a []) x = ev_atom inc lim d fields a x.
Proof.
  rewrite ev_expr_Ex. unfold ebind. destruct (ev_atom inc lim d fields a x) as [[v y]|]; reflexivity.
Qed.
End One.

(** ** Arithmetic *)

Definition number (v : value) : option Q :=
  match v with VInt z => Some (inject_Z z) | VFrac q => Some q | _ => None end.
Definition is_int (v : value) : bool := match v with VInt _ => true | _ => false end.

(** The exact result of [v op w] on numbers: Ints give an Int except for /, everything else a Frac in
    lowest terms. *)
Inductive arith : binop -> value -> value -> value -> Prop :=
| ar_add a b : arith BPlus (VInt a) (VInt b) (VInt (a + b))
| ar_sub a b : arith BMinus (VInt a) (VInt b) (VInt (a - b))
| ar_mul a b : arith BMult (VInt a) (VInt b) (VInt (a * b))
| ar_mod a b k r : b <> 0%Z -> a = (b * k + r)%Z -> (Z.abs r < Z.abs b)%Z -> (0 <= r * a)%Z ->
    arith BMod (VInt a) (VInt b) (VInt r)
| ar_div v w a b q : number v = Some a -> number w = Some b -> ~ b == 0 -> lowest q -> q * b == a ->
    arith BDiv v w (VFrac q)
| ar_addq v w a b q : is_int v && is_int w = false -> number v = Some a -> number w = Some b ->
    lowest q -> q == a + b -> arith BPlus v w (VFrac q)
| ar_subq v w a b q : is_int v && is_int w = false -> number v = Some a -> number w = Some b ->
    lowest q -> q == a - b -> arith BMinus v w (VFrac q)
| ar_mulq v w a b q : is_int v && is_int w = false -> number v = Some a -> number w = Some b ->
    lowest q -> q == a * b -> arith BMult v w (VFrac q).

Lemma lowest_eqQ p q : lowest p -> lowest q -> p == q -> p = q.
Proof.
  intros P Q E. apply lowest_Qred in P. apply lowest_Qred in Q. rewrite <- P, <- Q. apply Qred_complete, E.
Qed.
Lemma red_iff q e : lowest q -> (q == e <-> q = Qred e).
Proof.
  intros L. split.
  - intros E. apply lowest_eqQ; auto. apply lowest_red. rewrite Qred_correct. exact E.
  - intros ->. apply Qred_correct.
Qed.
Lemma rem_spec a b r : b <> 0%Z ->
  ((exists k, a = (b * k + r)%Z /\ (Z.abs r < Z.abs b)%Z /\ (0 <= r * a)%Z) <-> r = Z.rem a b).
Proof.
  intros H. split.
  - intros (k & E & L & S). apply (Zquot.Zrem_unique_full a b k r); auto. red.
    destruct (Z.eq_dec a 0) as [Ha|Ha].
    + assert (r = 0)%Z; [|lia]. subst a. destruct (Z.eq_dec k 0) as [->|]; [lia|]. nia.
    + destruct (Z_le_gt_dec 0 a); [left; split; nia|right; split; nia].
  - intros ->. exists (Z.quot a b). split; [apply Z.quot_rem; auto|]. split; [apply Z.rem_bound_abs; auto|].
    apply Z.rem_sign_mul; auto.
Qed.
