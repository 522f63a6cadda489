(** * AgreeMain: the induction over the parser. *)
From Verif Require Export Agree.
From Coq Require String.
Import String.StringSyntax.
Open Scope N_scope.

Lemma agr_congr {A B} `{U : Unicode} `{EX : Exc} (P : B -> Prop) (pr : A -> B) m (ev ev' : ES B) rest s :
  (forall x, ev x = ev' x) -> agr P pr m ev rest s -> agr P pr m ev' rest s.
Proof. intros H. apply agr_ext. auto. Qed.

Section Fields.
Context `{U : Unicode} `{EX : Exc}.

Lemma kind_letter c r : c <> 64 -> c <> 94 ->
  kind_of_item (c :: r) = if mem_str (c :: r) reserved_words then KIllegal else KField.
Proof.
  intros H1 H2. unfold kind_of_item. destruct c as [|p]; [reflexivity|].
  do 7 (try (destruct p as [p|p|]; try reflexivity)); congruence.
Qed.
Lemma mem_reserved f : mem_str f reserved_words = is_reserved f.
Proof. apply eq_true_iff_eq. rewrite mem_str_iff, is_reserved_iff. reflexivity. Qed.

Lemma parse_field_item f rest s line col : item_name f -> s_rest s = f ++ 58 :: rest ->
  match kind_of_item f with
  | KIllegal => exists e s', parse_field line col s = (Err e, s')
  | k => exists l' k', parse_field line col s =
      (Ok (f, match k with KGlobal => FGlobal | KParent => FParent | _ => FRegular end),
       set_stream s rest l' k')
  end.
Proof.
  intros (c & r & Hf & Hc & Hr) R. unfold parse_field, peek_unwrap, bind, peek. rewrite R.
  assert (C64 : c <> 64).
  { destruct Hc as [H| ->]; [|discriminate]. apply letter_lod, lod_range in H. lia. }
  destruct Hf as [->| ->].
  - cbn [app unwrap ret]. replace (c =? 64) with false by (symmetry; apply N.eqb_neq; auto).
    unfold ret. rewrite ?R. cbn [app].
    destruct (scan_field_all c r rest (s_line s) (s_col s) [] Hc Hr) as (l' & k' & E).
    cbn [app] in E. rewrite E.
    destruct (N.eq_dec c 94) as [->|C94].
    + destruct r as [|d r].
      * cbn. eauto.
      * replace (is_reserved (94 :: d :: r)) with false by reflexivity.
        replace (str_eqb (94 :: d :: r) (lit "^")) with false by reflexivity.
        unfold fail. cbn. eauto.
    + rewrite kind_letter, mem_reserved by auto. destruct (is_reserved (c :: r)); [unfold fail; eauto|].
      replace (str_eqb (c :: r) (lit "^")) with false
        by (symmetry; apply str_eqb_neq; intros E2; apply C94; injection E2; auto).
      exists l', k'. rewrite (caret_match (c :: r)). unfold starts_caret.
      apply N.eqb_neq in C94. rewrite C94. reflexivity.
  - cbn [app unwrap ret]. change (64 =? 64) with true. cbv iota. unfold next_unwrap, bind, next, ret. rewrite R.
    cbn [app]. destruct (adv 64 (s_line s) (s_col s)) as [l k]. cbn [unwrap ret s_rest set_stream s_line s_col].
    unfold ret. cbn [s_rest set_stream s_line s_col].
    destruct (scan_field_all c r rest l k [64] Hc Hr) as (l' & k' & E). cbn [app] in E. rewrite E.
    assert (Y : forall t, hd_error t <> Some 64 -> str_eqb (64 :: c :: r) t = false).
    { intros t Ht. apply str_eqb_neq. intros E2. apply Ht. rewrite <- E2. auto. }
    replace (is_reserved (64 :: c :: r)) with false.
    2:{ symmetry. unfold is_reserved.
        replace (str_eqb (64 :: c :: r) (lit "@")) with false by reflexivity.
        rewrite !Y by (cbn; discriminate). reflexivity. }
    rewrite Y by (cbn; discriminate). exists l', k'. reflexivity.
Qed.
End Fields.

Definition is_maxdepth (e : perr) : Prop := exists l c, e_kind e = MaxDepth l c.

(** ** What including a file means, given how files are loaded *)
Definition inc_of (fs : fsys) (load_inc : inc_ty -> str -> shared -> outcome value * shared)
  (file : option str) (k : inc_ty) (p : str) : ES value := fun x =>
  match finish_include fs load_inc k p 0 0 (mkst file [] 1 1 (fst x) (snd x)) with
  | (Ok v, s') => Some (v, st s')
  | _ => None
  end.

Section Main.
Context `{U : Unicode} `{EX : Exc}.
Variable fs : fsys.
Variable load_inc : inc_ty -> str -> shared -> outcome value * shared.
Variable file : option str.
Variable lim : N -> bool.
Hypothesis lim_lo : forall d, (d <=? 64) = true -> lim d = true.
Hypothesis lim_hi : forall d, (d <=? 64) = false -> lim d = false \/ (forall e, is_maxdepth e -> exc e).
Hypothesis load_ok : forall ty p sh v sh', wfvals sh ->
  load_inc ty p sh = (Ok v, sh') -> wf_value good_names v /\ wfvals sh'.

Notation inc := (inc_of fs load_inc file).
Notation EA := (ev_atom inc lim).
Notation EE := (ev_expr inc lim).

Lemma wfvals_assoc sh f v : wfvals sh -> assoc f (sh_vals sh) = Some v -> wf_value good_names v.
Proof.
  intros H E. apply assoc_some in E as (l & r & E & _). unfold wfvals in H. rewrite E in H.
  apply Forall_app in H as [_ H]. inversion H; auto.
Qed.
Lemma finish_agr k p line col s : s_file s = file -> okst s ->
  agr okv idp (finish_include fs load_inc k p line col) (inc k p) (s_rest s) s.
Proof.
  intros <- [K1 K2]. unfold agr, inc_of, finish_include.
  destruct s as [f r l c g sh]. cbn [s_file st s_globals s_sh fst snd] in *.
  unfold bind, getfile, get_sh, put_sh, run_include, fail, panic, ret, log_ev, st; cbn [s_file s_sh set_sh].
  unfold assert_. destruct (has_parent f); [|exact I]. unfold ret.
  set (path := match f with Some f0 => beside f0 p | None => p end).
  destruct (negb (is_file fs path)); [right; reflexivity|].
  destruct (canon fs path) as [full|]; [|right; reflexivity].
  destruct f as [f|].
  - destruct (canon fs f) as [ff|]; [|exact I]. cbn [s_sh set_sh log_ev sh_vals sh_open sh_log sh_g].
    destruct (mem_str full _); [right; reflexivity|].
    destruct (assoc full (sh_vals sh)) as [v|] eqn:A.
    + cbn. repeat split; auto. apply wf_okv. eapply wfvals_assoc; eauto.
    + cbn [s_sh set_sh sh_vals sh_open sh_log sh_g].
      match goal with |- context [load_inc k path ?x] => destruct (load_inc k path x) as [[v|e| |] sh'] eqn:L end;
        cbn; auto. apply load_ok in L as [L1 L2]; auto. repeat split; auto; [constructor; auto|apply wf_okv; auto].
  - cbn [s_sh set_sh log_ev sh_vals sh_open sh_log sh_g].
    destruct (mem_str full _); [right; reflexivity|].
    destruct (assoc full (sh_vals sh)) as [v|] eqn:A.
    + cbn. repeat split; auto. apply wf_okv. eapply wfvals_assoc; eauto.
    + cbn [s_sh set_sh sh_vals sh_open sh_log sh_g].
      match goal with |- context [load_inc k path ?x] => destruct (load_inc k path x) as [[v|e| |] sh'] eqn:L end;
        cbn; auto. apply load_ok in L as [L1 L2]; auto. repeat split; auto; [constructor; auto|apply wf_okv; auto].
Qed.

Lemma deep_agr {A B} (P : B -> Prop) (pr : A -> B) d (m : M A) (ev : ES B) rest s :
  agr P pr m ev rest s ->
  agr P pr (if MAX_DEPTH <? d then let* '(l, k) := getpos in fail (MaxDepth l k) else m)
    (deep lim d ev) rest s.
Proof.
  intros H. unfold deep, MAX_DEPTH. destruct (d <=? 64) eqn:E.
  - rewrite (lim_lo _ E). apply N.leb_le in E. destruct (N.ltb_spec 64 d); [lia|]. exact H.
  - apply lim_hi in E as L. apply N.leb_gt in E. destruct (N.ltb_spec 64 d); [|lia].
    unfold agr, bind, getpos, fail. destruct L as [->|L]; [right; reflexivity|left].
    apply L. unfold is_maxdepth. cbn. eauto.
Qed.

(** *** The evaluation in the order of the parser *)
Fixpoint ev_ops (d : N) (pairs : list pair_t) (vals : list value) (ops : list binop)
  (l : list (binop * atom)) : ES (list value * list binop) :=
  match l with
  | [] => eret (vals, ops)
  | (op, a) :: l' =>
      do w <- EA d pairs a;;
      if is_priority op then
        match pop_back vals with
        | Some (vals', v) => do p <- elift (op_value op v w);; ev_ops d pairs (vals' ++ [p]) ops l'
        | None => efail
        end
      else ev_ops d pairs (vals ++ [w]) (ops ++ [op]) l'
  end.
Fixpoint ev_low (v : value) (vals : list value) (ops : list binop) : ES value :=
  match ops, vals with
  | [], _ => eret v
  | op :: ops', w :: vals' => do x <- ev_op op v w;; ev_low x vals' ops'
  | _, [] => efail
  end.
Definition ev_low' (r : list value * list binop) : ES value :=
  match fst r with v :: vals => ev_low v vals (snd r) | [] => efail end.

Definition ev_item (d : N) (f : str) (e : expr) (fields : list pair_t) (parent : option obj)
  : ES (list pair_t * option obj) :=
  match kind_of_item f with
  | KIllegal => efail
  | KGlobal =>
      do g <- eglobals;;
      match assoc f g with
      | Some _ => efail
      | None => do v <- EE d fields e;; do _ <- edefine f v;; eret (fields, parent)
      end
  | KParent =>
      match parent with
      | Some _ => efail
      | None =>
          do v <- EE d fields e;;
          match v with VObj o => eret (fields, Some o) | _ => efail end
      end
  | KField =>
      if mem_str f (map fst fields) then efail
      else do v <- EE d fields e;; eret (fields ++ [(f, v)], parent)
  end.
Fixpoint ev_arrl (d : N) (pairs : list pair_t) (vs : list value) (t : ty) (es : list expr)
  : ES (list value * ty) :=
  match es with
  | [] => eret (vs, t)
  | e :: es' =>
      do v <- EE d pairs e;;
      match lub_from t [get_type v] with
      | Some t' => ev_arrl d pairs (vs ++ [v]) t' es'
      | None => efail
      end
  end.
Fixpoint ev_tupl (d : N) (pairs : list pair_t) (vs : list value) (es : list expr) : ES (list value) :=
  match es with
  | [] => eret vs
  | e :: es' => do v <- EE d pairs e;; ev_tupl d pairs (vs ++ [v]) es'
  end.

(** *** ... and that it is the specification *)
Lemma ebind_ext {A B} (m : ES A) (f g : A -> ES B) x :
  (forall a y, f a y = g a y) -> ebind m f x = ebind m g x.
Proof. intros H. unfold ebind. destruct (m x) as [[a y]|]; auto. Qed.
Lemma ebind_ret {A} (m : ES A) x : ebind m eret x = m x.
Proof. unfold ebind, eret. destruct (m x) as [[a y]|]; auto. Qed.
Lemma ebind_elift_fail {A B C} (m : ES A) (o : option B) (f : A -> B -> ES C) x :
  ebind m (fun a => ebind (elift o) (fun b => f a b)) x =
  ebind (elift o) (fun b => ebind m (fun a => f a b)) x.
Proof. unfold ebind, elift, eret, efail. destruct o; auto. destruct (m x) as [[a y]|]; auto. Qed.

Lemma ev_items_cons d f e its ps par x :
  ev_items (EE d) ((f, e) :: its) ps par x =
  ebind (ev_item d f e ps par) (fun r => ev_items (EE d) its (fst r) (snd r)) x.
Proof.
  cbn [ev_items]. unfold ev_item. destruct (kind_of_item f); auto.
  - rewrite ebind_assoc. apply ebind_ext. intros g z. destruct (assoc f g); auto.
    unfold ebind, edefine, eret. destruct (EE d ps e z) as [[w y]|]; auto.
  - destruct par; auto. unfold ebind. destruct (EE d ps e x) as [[v y]|]; auto. destruct v; auto.
  - destruct (mem_str f (map fst ps)); auto. unfold ebind. destruct (EE d ps e x) as [[v y]|]; auto.
Qed.

Lemma ev_tupl_spec d pairs es : forall vs x,
  ev_tupl d pairs vs es x = (do ws <- emap (EE d pairs) es;; eret (vs ++ ws)) x.
Proof.
  induction es as [|e es IH]; intros vs x; cbn [ev_tupl emap].
  - unfold ebind, eret. rewrite app_nil_r. auto.
  - rewrite ebind_assoc. apply ebind_ext. intros v y. rewrite IH. rewrite ebind_assoc.
    apply ebind_ext. intros ws z. unfold ebind, eret. rewrite <- app_assoc. auto.
Qed.
Lemma lub_from_cons t u ts : lub_from t (u :: ts) =
  match lub_from t [u] with Some t' => lub_from t' ts | None => None end.
Proof.
  unfold lub_from. cbn [fold_left]. destruct (most_specific t u) as [[x f]|]; auto. apply lub_none.
Qed.
Lemma ev_arrl_spec d pairs es : forall vs t x,
  ev_arrl d pairs vs t es x =
  (do ws <- emap (EE d pairs) es;;
   match lub_from t (map get_type ws) with Some t' => eret (vs ++ ws, t') | None => efail end) x.
Proof.
  induction es as [|e es IH]; intros vs t x; cbn [ev_arrl emap].
  - unfold ebind, eret. cbn. rewrite app_nil_r. auto.
  - rewrite ebind_assoc. apply ebind_ext. intros v y.
    rewrite ebind_assoc. rewrite (ebind_ext _ _ (fun ws =>
      match lub_from t [get_type v] with Some t' =>
        match lub_from t' (map get_type ws) with Some t'' => eret ((vs ++ [v]) ++ ws, t'') | None => efail end
      | None => efail end)).
    2:{ intros ws z. unfold ebind, eret at 1. cbn [map]. rewrite lub_from_cons, <- app_assoc.
        destruct (lub_from t [get_type v]); auto. }
    destruct (lub_from t [get_type v]) as [t'|]; [apply IH|].
    unfold ebind, efail. destruct (emap _ es y) as [[? ?]|]; auto.
Qed.

Lemma ebind_fail_r {A B} (m : ES A) x : ebind m (fun _ => @elift B None) x = None.
Proof. unfold ebind, elift, efail. destruct (m x) as [[? ?]|]; auto. Qed.
Fixpoint pure_ops (vals : list value) (ops : list binop) (l : list (binop * value))
  : option (list value * list binop) :=
  match l with
  | [] => Some (vals, ops)
  | (op, w) :: l' =>
      if is_priority op then
        match pop_back vals with
        | Some (vals', v) =>
            match op_value op v w with Some p => pure_ops (vals' ++ [p]) ops l' | None => None end
        | None => None
        end
      else pure_ops (vals ++ [w]) (ops ++ [op]) l'
  end.
Notation EC d pairs := (emap (fun x : binop * atom => match x with (op, b) => do w <- EA d pairs b;; eret (op, w) end)).
Lemma elift_match {A B C} (o : option A) (k : A -> option B) (g : B -> ES C) x :
  ebind (elift (match o with Some a => k a | None => None end)) g x =
  ebind (elift o) (fun a => ebind (elift (k a)) g) x.
Proof. destruct o; reflexivity. Qed.
Lemma ev_ops_spec d pairs l : forall vals ops x,
  ev_ops d pairs vals ops l x = (do ws <- EC d pairs l;; elift (pure_ops vals ops ws)) x.
Proof.
  induction l as [|[op a] l IH]; intros vals ops x; cbn [ev_ops emap].
  - reflexivity.
  - rewrite ebind_assoc, ebind_assoc. apply ebind_ext. intros w y.
    unfold ebind at 2. unfold eret at 1. rewrite ebind_assoc.
    rewrite (ebind_ext _ _ (fun ws => elift (pure_ops vals ops ((op, w) :: ws)))) by reflexivity.
    cbn [pure_ops]. destruct (is_priority op); [|apply IH].
    destruct (pop_back vals) as [[vals' v]|].
    + destruct (op_value op v w) as [p|]; [exact (IH (vals' ++ [p]) ops y)|].
      symmetry. apply ebind_fail_r.
    + symmetry. apply ebind_fail_r.
Qed.

(** the sum over [L] *)
Fixpoint low_acc (acc : option (value * binop)) (L : list (value * binop)) : ES (option (value * binop)) :=
  match L with
  | [] => eret acc
  | (v, op) :: L' => do s <- add_up acc v;; low_acc (Some (s, op)) L'
  end.
Lemma low_acc_app L1 L2 : forall acc x,
  low_acc acc (L1 ++ L2) x = (do a <- low_acc acc L1;; low_acc a L2) x.
Proof.
  induction L1 as [|[v op] L1 IH]; intros acc x; cbn [low_acc app]; [reflexivity|].
  rewrite ebind_assoc. apply ebind_ext. auto.
Qed.
Lemma ev_low_acc L : forall v0 op0 cur x, ev_low v0 (map fst L ++ [cur]) (op0 :: map snd L) x =
  (do a <- low_acc (Some (v0, op0)) L;; add_up a cur) x.
Proof.
  induction L as [|[v op] L IH]; intros v0 op0 cur x; cbn [map app ev_low low_acc fst snd].
  - apply ebind_ret.
  - rewrite ebind_assoc. cbn [add_up]. apply ebind_ext. intros s y. apply IH.
Qed.
Lemma ev_low'_acc L cur x : ev_low' (map fst L ++ [cur], map snd L) x =
  (do a <- low_acc None L;; add_up a cur) x.
Proof.
  unfold ev_low'. cbn [fst snd]. destruct L as [|[v op] L]; cbn [map app fst snd low_acc]; [reflexivity|].
  rewrite ev_low_acc. reflexivity.
Qed.
Lemma pop_back_app {A} (l : list A) x : pop_back (l ++ [x]) = Some (l, x).
Proof. unfold pop_back. rewrite rev_app_distr. cbn. rewrite rev_involutive. auto. Qed.
Lemma pure_chain ws : forall L cur x,
  ebind (elift (pure_ops (map fst L ++ [cur]) (map snd L) ws)) ev_low' x =
  (do a <- low_acc None L;; ev_chain a cur ws) x.
Proof.
  induction ws as [|[op w] ws IH]; intros L cur x; cbn [pure_ops ev_chain].
  - exact (ev_low'_acc L cur x).
  - rewrite pop_back_app. destruct (is_priority op).
    + rewrite elift_match. rewrite ebind_elift_fail.
      apply ebind_ext. intros p y. apply IH.
    + specialize (IH (L ++ [(cur, op)]) w x). rewrite !map_app in IH. cbn [map fst snd] in IH.
      rewrite IH. clear IH. unfold ebind at 1. rewrite low_acc_app. unfold ebind.
      destruct (low_acc None L x) as [[a y]|]; auto. cbn [low_acc].
      unfold ebind, eret. destruct (add_up a cur y) as [[s z]|]; auto.
Qed.
Lemma ev_expr_eq d pairs a l x :
  (do v <- EA d pairs a;; do r <- ev_ops d pairs [v] [] l;; ev_low' r) x = EE d pairs (Ex a l) x.
Proof.
  change (EE d pairs (Ex a l)) with (do v <- EA d pairs a;; do vs <- EC d pairs l;; ev_chain None v vs).
  apply ebind_ext. intros v y. unfold ebind at 1. rewrite ev_ops_spec.
  fold (ebind (do ws <- EC d pairs l;; elift (pure_ops [v] [] ws)) ev_low' y).
  rewrite ebind_assoc. apply ebind_ext. intros ws z.
  exact (pure_chain ws [] v z).
Qed.

(** *** The statements, for recursion budget [n] *)
Notation PV := (parse_value fs load_inc).

Definition A_val n := forall a t d pairs line col brace rest s,
  r_atom a t -> fol rest -> okps pairs -> s_rest s = t ++ rest -> s_file s = file -> okst s ->
  agr okv idp (PV n pairs line col d brace false) (EA d pairs a) rest s.
Definition A_exp n := forall e t d pairs line col brace rest s,
  r_expr e t -> folb brace rest -> okps pairs -> s_rest s = t ++ rest -> s_file s = file -> okst s ->
  agr okv idp (PV n pairs line col d brace true) (EE d pairs e) rest s.
Definition val3 (x : value * N * N) : value := fst (fst x).
Definition props (x : list (value * N * N) * list binop) : list value * list binop :=
  (map val3 (fst x), snd x).
Definition Pops (x : list value * list binop) : Prop := Forall okv (fst x).
Definition A_ops n := forall l t d pairs brace rest s vals ops,
  r_chain l t -> folb brace rest -> okps pairs -> s_rest s = t ++ rest -> s_file s = file -> okst s ->
  Forall okv (map val3 vals) ->
  agr Pops props (parse_ops fs load_inc n pairs d brace vals ops) (ev_ops d pairs (map val3 vals) ops l) rest s.
Definition A_un n := forall op a t d pairs brace rest s,
  r_atom a t -> fol rest -> okps pairs -> s_rest s = unop_text op :: t ++ rest -> s_file s = file -> okst s ->
  agr okv idp (parse_unary_op fs load_inc n pairs d brace op)
    (do v <- EA (d + 1) pairs a;; elift (un_value op v)) rest s.
Definition obj_ev d its : ES value :=
  do r <- ev_items (EE d) its [] None;; do i <- fresh;; eret (VObj (MkObj i (fst r) (snd r))).
Definition A_obj n := forall its w t d rest s,
  ws w -> r_items its t -> s_rest s = 123 :: w ++ t ++ 125 :: rest -> s_file s = file -> okst s ->
  agr okv idp (parse_obj fs load_inc n d) (deep lim d (obj_ev d its)) rest s.
Definition okf (r : list pair_t * option obj) : Prop :=
  okps (fst r) /\ Forall fname (map fst (fst r)) /\ forall o, snd r = Some o -> okv (VObj o).
Definition A_pairs n := forall its t d rest s ps par,
  r_items its t -> okf (ps, par) -> s_rest s = t ++ 125 :: rest -> s_file s = file -> okst s ->
  agr okf idp (pairs_loop fs load_inc n ps par d (Some 125)) (ev_items (EE d) its ps par) rest s.
Definition A_root n := forall its t c d s ps par,
  its <> [] -> r_items its t -> last_comment c -> okf (ps, par) ->
  s_rest s = t ++ c -> s_file s = file -> okst s ->
  agr okf idp (pairs_loop fs load_inc n ps par d None) (ev_items (EE d) its ps par) [] s.
Definition tail (brace : option char) (w : str) (X : str) (more : bool) (rest : str) : Prop :=
  folb brace (w ++ X) /\
  ((more = true /\ rest = X /\ exists c r, X = c :: r /\ is_whitespace c = false) \/
   (more = false /\ rest = [] /\ brace = None /\ last_comment X)).
Definition A_pair n := forall f e w t w' X more rest d brace s ps par,
  item_name f -> ws w -> r_expr e t -> ws w' -> tail brace w' X more rest -> okf (ps, par) ->
  s_rest s = f ++ 58 :: w ++ t ++ w' ++ X -> s_file s = file -> okst s ->
  agr (fun r => fst (fst r) = more /\ okf (snd (fst r), snd r)) idp (parse_field_value_pair fs load_inc n ps par d brace)
    (do r <- ev_item d f e ps par;; eret (more, fst r, snd r)) rest s.
Definition arr_ev d pairs es : ES value :=
  do vs <- emap (EE d pairs) es;;
  match lub (map get_type vs) with
  | Some t => do i <- fresh;; eret (VArr (MkArr i t vs))
  | None => efail
  end.
Definition A_arr n := forall es w t d pairs rest s,
  ws w -> r_elems es t -> okps pairs -> s_rest s = 91 :: w ++ t ++ 93 :: rest -> s_file s = file -> okst s ->
  agr okv idp (parse_arr fs load_inc n pairs d) (deep lim d (arr_ev d pairs es)) rest s.
Definition A_arrl n := forall es w t d pairs rest s vs tcur any,
  ws w -> r_elems es t -> okps pairs -> Forall okv vs -> any = has_any tcur ->
  s_rest s = w ++ t ++ 93 :: rest -> s_file s = file -> okst s ->
  agr (fun r => Forall okv (fst r)) idp (arr_loop fs load_inc n pairs d vs tcur any)
    (ev_arrl d pairs vs tcur es) rest s.
Definition tup_ev d pairs es : ES value :=
  do vs <- emap (EE d pairs) es;; do i <- fresh;; eret (VTup (MkTup i (map get_type vs) vs)).
Definition A_tup n := forall es w t d pairs rest s,
  ws w -> r_elems es t -> okps pairs -> s_rest s = 40 :: w ++ t ++ 41 :: rest -> s_file s = file -> okst s ->
  agr okv idp (parse_tup fs load_inc n pairs d) (deep lim d (tup_ev d pairs es)) rest s.
Definition A_tupl n := forall es w t d pairs rest s vs,
  ws w -> r_elems es t -> okps pairs -> Forall okv vs ->
  s_rest s = w ++ t ++ 41 :: rest -> s_file s = file -> okst s ->
  agr (Forall okv) idp (tup_loop fs load_inc n pairs d vs) (ev_tupl d pairs vs es) rest s.
Definition is_name (a : atom) : Prop := match a with AVar _ _ | ADot _ _ _ => True | _ => False end.
Definition A_var n := forall a t d pairs line col brace rest s,
  is_name a -> r_atom a t -> fol rest -> okps pairs -> s_rest s = t ++ rest -> s_file s = file -> okst s ->
  agr okv idp (parse_variable fs load_inc n pairs line col d brace) (EA d pairs a) rest s.
Definition inc_ev d pairs e path : ES value :=
  do v <- EE d pairs e;;
  match v with
  | VStr f => match path with None => inc IObj f | Some _ => efail end
  | VObj o =>
      do k <- ev_keyword o [IObj; IStr; IArr; ITup];;
      match k, path with
      | Some k, Some e2 =>
          do v2 <- EE d pairs e2;;
          match v2 with VStr f => inc k f | _ => efail end
      | _, _ => efail
      end
  | _ => efail
  end.
Definition A_inc n := forall e path t d pairs rest s,
  r_atom (AInc e path) t -> okps pairs -> s_rest s = t ++ rest -> s_file s = file -> okst s ->
  agr okv idp (parse_include fs load_inc n pairs d) (deep lim d (inc_ev d pairs e path)) rest s.

Record A_all n : Prop := {
  AV : A_val n; AE : A_exp n; AO : A_ops n; AU : A_un n; AOb : A_obj n; APs : A_pairs n;
  ARt : A_root n; AP : A_pair n; AA : A_arr n; AAl : A_arrl n; AT : A_tup n; ATl : A_tupl n;
  AVr : A_var n; AI : A_inc n
}.

Section Step.
Variable n : nat.
Hypothesis IH : A_all n.

Definition disp pairs line col d brace (ch : char) : M value :=
  if ch =? c_quote then parse_str
  else if ch =? c_lbrace then parse_obj fs load_inc n (d + 1)
  else if ch =? c_lbrack then parse_arr fs load_inc n pairs (d + 1)
  else if ch =? c_lparen then parse_tup fs load_inc n pairs (d + 1)
  else if ch =? c_lt then parse_include fs load_inc n pairs (d + 1)
  else if ch =? c_plus then parse_unary_op fs load_inc n pairs d brace UPlus
  else if ch =? c_minus then parse_unary_op fs load_inc n pairs d brace UMinus
  else if is_numeric_char ch then parse_numeric line col
  else if is_valid_field_char ch true || (ch =? c_at) then
    parse_variable fs load_inc n pairs line col d brace
  else fail (InvalidValueChar ch line col).

Lemma disp_num pairs line col d brace c : 48 <= c <= 57 \/ c = 46 \/ c = 44 ->
  disp pairs line col d brace c = parse_numeric line col.
Proof.
  intros H. unfold disp.
  do 7 match goal with |- context [c =? ?k] => destruct (N.eqb_spec c k) as [E|_]; [exfalso; clear - H E; lia|] end.
  replace (is_numeric_char c) with true; auto. symmetry. unfold is_numeric_char.
  destruct H as [H|[->| ->]]; [|reflexivity|reflexivity]. apply digit_range in H. rewrite H. auto.
Qed.
Lemma disp_var pairs line col d brace c : letter c ->
  disp pairs line col d brace c = parse_variable fs load_inc n pairs line col d brace.
Proof.
  intros H. unfold disp. pose proof (lod_range _ (letter_lod _ H)) as R.
  assert (D : is_digit c = false) by (apply letter_not_digit; auto).
  assert (D2 : ~ (48 <= c <= 57)) by (rewrite <- digit_range, D; discriminate).
  do 7 match goal with |- context [c =? ?k] => destruct (N.eqb_spec c k) as [E|_]; [exfalso; clear - R E; lia|] end.
  replace (is_numeric_char c) with false.
  - rewrite (letter_field _ H). reflexivity.
  - symmetry. unfold is_numeric_char. rewrite D.
    do 2 match goal with |- context [c =? ?k] => destruct (N.eqb_spec c k) as [E|_]; [exfalso; clear - R E; lia|] end.
    reflexivity.
Qed.
Lemma disp_at pairs line col d brace :
  disp pairs line col d brace 64 = parse_variable fs load_inc n pairs line col d brace.
Proof. unfold disp. cbn [N.eqb Pos.eqb]. rewrite orb_true_r. reflexivity. Qed.

Lemma disp_agr a t d pairs line col brace rest s c r :
  r_atom a t -> fol rest -> okps pairs -> s_rest s = t ++ rest -> s_file s = file -> okst s ->
  t = c :: r ->
  agr okv idp (disp pairs line col d brace c) (EA d pairs a) rest s.
Proof.
  intros H F Kp R Fl K Ht.
  destruct H as [w Hw|cs Hcs|glob m Hn|glob m sub t Hn Hs H|
    op a t H|es w t W H|es w t W H|its w t W H|e w t w' W H W'|e e2 w t w' t2 w2 W H W' N' H2 W2].
  - destruct Hw as (c0 & r0 & E & Hc & Hu & Hr). rewrite E in Ht. injection Ht as -> ->.
    rewrite disp_num by (apply num_head_range; auto). subst w.
    apply parse_numeric_agr; auto. exists c, r; auto.
  - injection Ht as <- _. apply parse_str_agr; auto. rewrite R. cbn [app]. rewrite <- app_assoc. reflexivity.
  - assert (E : disp pairs line col d brace c = parse_variable fs load_inc n pairs line col d brace).
    { destruct Hn as (c0 & r0 & -> & Hc & Hr). destruct glob; injection Ht as <- _; [apply disp_at|apply disp_var; auto]. }
    rewrite E. eapply (AVr n IH); eauto; [exact I|]. constructor; auto.
  - assert (E : disp pairs line col d brace c = parse_variable fs load_inc n pairs line col d brace).
    { destruct Hn as (c0 & r0 & -> & Hc & Hr). destruct glob; injection Ht as <- _; [apply disp_at|apply disp_var; auto]. }
    rewrite E. eapply (AVr n IH); eauto; [exact I|]. constructor; auto.
  - injection Ht as <- _. cbn [app] in R.
    replace (disp pairs line col d brace (unop_text op)) with (parse_unary_op fs load_inc n pairs d brace op)
      by (destruct op; reflexivity).
    eapply (AU n IH); eauto.
  - injection Ht as <- _. cbn [app] in R. rewrite <- !app_assoc in R. eapply (AA n IH); eauto.
  - injection Ht as <- _. cbn [app] in R. rewrite <- !app_assoc in R. eapply (AT n IH); eauto.
  - injection Ht as <- _. cbn [app] in R. rewrite <- !app_assoc in R. eapply (AOb n IH); eauto.
  - injection Ht as <- _. eapply (AI n IH); eauto. constructor; auto.
  - injection Ht as <- _. eapply (AI n IH); eauto. constructor; auto.
Qed.

Lemma step_val : A_val (S n).
Proof.
  intros a t d pairs line col brace rest s H F Kp R Fl K. rewrite parse_value_S.
  destruct (r_atom_head _ _ H) as (c & r & Ht & _).
  eapply agr_peek_unwrap; [rewrite R, Ht; reflexivity|].
  eapply agr_congr; [intros x; apply ebind_ret|]. eapply agr_bind.
  - eapply disp_agr; eauto.
  - cbn beta. intros v s' R' F' K' V. apply agr_ret; auto.
Qed.

Lemma low_agr ops : forall v vals s, okst s -> okv v -> Forall okv (map val3 vals) ->
  agr okv idp (eval_low_ops v vals ops) (ev_low v (map val3 vals) ops) (s_rest s) s.
Proof.
  induction ops as [|op ops IHo]; intros v vals s K V Vs.
  - destruct vals; apply agr_ret; auto.
  - destruct vals as [|[[w l] k] vals]; cbn [map eval_low_ops ev_low]; [apply agr_panic|].
    inversion Vs as [|x y V1 V2]; subst.
    eapply agr_bind; [apply binary_agr; auto|]. cbn beta. intros x s' R' F' K' V'.
    rewrite <- R'. apply IHo; auto.
Qed.

Lemma check_end_ok brace rest s : folb brace rest -> s_rest s = rest ->
  check_value_end brace s = (Ok tt, s).
Proof.
  intros F R. unfold check_value_end, bind, peek. rewrite R. destruct F as [->|(c & r & -> & H)]; [reflexivity|].
  unfold is_value_end_char. destruct H as [H|[H ->]].
  - rewrite H. cbn [orb]. replace (is_end_delimiter c) with false; [reflexivity|].
    symmetry. destruct (is_end_delimiter c) eqn:E; auto. unfold is_end_delimiter in E.
    rewrite !orb_true_iff, !N.eqb_eq in E.
    destruct E as [[[->| ->]| ->]| ->]; discriminate.
  - rewrite H, orb_true_r. cbn [orb andb opt_char_eqb]. rewrite N.eqb_refl. reflexivity.
Qed.

Lemma step_exp : A_exp (S n).
Proof.
  intros e t d pairs line col brace rest s H F Kp R Fl K. rewrite parse_value_S.
  destruct H as [a l t t' H Hl]. destruct (r_atom_head _ _ H) as (c & r & Ht & _).
  rewrite <- app_assoc in R.
  eapply agr_peek_unwrap; [rewrite R, Ht; reflexivity|].
  eapply agr_congr; [intros x; apply ev_expr_eq|]. eapply agr_bind.
  - eapply disp_agr; eauto. eapply fol_chain; eauto.
  - cbn beta iota. intros v s1 R1 F1 K1 V1.
    eapply agr_bind.
    + eapply (AO n IH l t' d pairs brace rest s1 [(v, line, col)] []); eauto; [congruence|].
      repeat constructor; auto.
    + cbn beta. intros [vals ops] s2 R2 F2 K2 V2.
      eapply agr_step; [apply (check_end_ok brace rest); auto|reflexivity|reflexivity|].
      unfold props, ev_low'. cbn [fst snd]. destruct vals as [|[[v1 l1] k1] vals]; [apply agr_panic|].
      inversion V2 as [|x y V3 V4]; subst x y. cbn [map]. rewrite <- R2. apply low_agr; auto.
Qed.

Lemma map_pop_back (vals : list (value * N * N)) :
  match pop_back vals with
  | Some (vals', x) => pop_back (map val3 vals) = Some (map val3 vals', val3 x) /\ vals = vals' ++ [x]
  | None => pop_back (map val3 vals) = None
  end.
Proof.
  pose proof (pop_back_spec vals) as H. destruct (pop_back vals) as [[vals' x]|].
  - subst vals. rewrite map_app. cbn [map]. rewrite pop_back_app. auto.
  - subst vals. reflexivity.
Qed.

Lemma step_ops : A_ops (S n).
Proof.
  intros l t d pairs brace rest s vals ops H F Kp R Fl K V. rewrite parse_ops_S.
  destruct H as [|op a l t t' H Hl].
  - cbn [app] in R. cbn [ev_ops].
    assert (G : agr Pops props (ret (vals, ops)) (eret (map val3 vals, ops)) rest s) by (apply agr_ret; auto).
    destruct F as [->|(c & r & -> & Hc)].
    + eapply agr_peek_nil; eauto.
    + eapply agr_peek; eauto. replace (get_op c) with (@None binop); [exact G|].
      destruct (get_op c) as [op|] eqn:E; auto. exfalso. unfold get_op in E.
      destruct Hc as [Hc|[Hc _]]; unfold is_whitespace, is_end_delimiter in Hc;
      repeat match type of E with (if ?x =? ?y then _ else _) = _ => destruct (N.eqb_spec x y) as [->|_]; [discriminate Hc|] end;
      discriminate.
  - cbn [app] in R. rewrite <- app_assoc in R. cbn [ev_ops].
    eapply agr_peek; [exact R|]. rewrite op_text_op. cbv iota.
    eapply agr_next; [exact R|]. destruct (r_atom_head _ _ H) as (c & r & Ht & _).
    eapply agr_peek; [cbn; rewrite Ht; reflexivity|]. apply agr_getpos.
    eapply agr_bind.
    + apply (AV n IH a t d pairs _ _ brace (t' ++ rest)); auto. eapply fol_chain; eauto.
    + cbn beta. intros w s1 R1 F1 K1 V1. change (s_file (adv1 s (op_text op) (t ++ t' ++ rest))) with (s_file s) in F1.
      destruct (is_priority op) eqn:Pr.
      * pose proof (map_pop_back vals) as PB. destruct (pop_back vals) as [[vals' [[v1 l1] k1]]|]; [|apply agr_panic].
        destruct PB as [-> ->]. rewrite map_app in V. apply Forall_app in V as [Va Vb]. inversion Vb as [|x y Vc Vd]; subst.
        change (val3 (v1, l1, k1)) with v1 in *.
        eapply agr_bind; [apply binary_prio_agr; eauto|]. cbn beta. intros p s2 R2 F2 K2 V2.
        replace (map val3 vals' ++ [p]) with (map val3 (vals' ++ [(p, l1, k1)])) by (rewrite map_app; reflexivity).
        eapply (AO n IH l t'); eauto; try congruence.
        rewrite map_app. apply Forall_app; split; auto. repeat constructor; auto.
      * replace (map val3 vals ++ [w]) with (map val3 (vals ++ [(w, s_line (adv1 s (op_text op) (t ++ t' ++ rest)),
          s_col (adv1 s (op_text op) (t ++ t' ++ rest)))])) by (rewrite map_app; reflexivity).
        eapply (AO n IH l t'); eauto; try congruence.
        rewrite map_app. apply Forall_app; split; auto. repeat constructor; auto.
Qed.

Lemma step_un : A_un (S n).
Proof.
  intros op a t d pairs brace rest s H F Kp R Fl K. rewrite parse_unary_op_S.
  eapply agr_next; [exact R|]. apply agr_assert; [destruct op; reflexivity|]. apply agr_getpos.
  destruct (r_atom_head _ _ H) as (c & r & Ht & _).
  eapply agr_peek; [cbn; rewrite Ht; reflexivity|].
  eapply agr_bind.
  - eapply (AV n IH); eauto.
  - cbn beta. intros v s1 R1 F1 K1 V1. rewrite <- R1. apply unary_agr; auto.
Qed.

Lemma new_obj_agr r s : okf r -> okst s ->
  agr okv idp (let* o := new_obj (fst r) (snd r) in ret (VObj o))
    (do i <- fresh;; eret (VObj (MkObj i (fst r) (snd r)))) (s_rest s) s.
Proof.
  intros (K1 & K2 & K3) K. unfold new_obj. apply agr_bind_assoc.
  eapply agr_bind; [apply gen_id_agr; auto|]. cbn beta. intros i s1 R1 F1 Ks _.
  apply agr_ret_step. apply agr_ret; auto. apply okv_obj. auto.
Qed.

Lemma step_obj : A_obj (S n).
Proof.
  intros its w t d rest s W H R Fl K. rewrite parse_obj_S. apply deep_agr.
  eapply agr_next_unwrap; [exact R|]. apply agr_assert; [reflexivity|].
  assert (G : forall l k, agr okv idp (let* x := pairs_loop fs load_inc n [] None d (Some 125) in
     match x with (ps, par) => let* o := new_obj ps par in ret (VObj o) end) (obj_ev d its) rest
     (set_stream (adv1 s 123 (w ++ t ++ 125 :: rest)) (t ++ 125 :: rest) l k)).
  { intros l k. unfold obj_ev. eapply agr_bind.
    - eapply (APs n IH its t); eauto; [|reflexivity].
      split; [constructor|]. split; [constructor|discriminate].
    - cbn beta. intros [ps par] s1 R1 F1 K1 V1. rewrite <- R1. apply (new_obj_agr (ps, par)); auto. }
  destruct its as [|[f e] its].
  - apply r_items_nil in H as ->. eapply agr_find; [exact W|reflexivity|reflexivity|exact G].
  - assert (exists c r, t = c :: r /\ head_ok c) as (c & r & Ht & Hc & _).
    { inversion H as [|f' e' its' w1 t1 w2 t2 Hf]; subst. destruct (item_head f Hf) as (c & r & -> & Hc).
      cbn [app]. eauto. }
    eapply agr_find; [exact W|cbn; rewrite Ht; reflexivity|exact Hc|].
    intros l k. specialize (G l k). rewrite Ht in G. exact G.
Qed.

Lemma step_pairs : A_pairs (S n).
Proof.
  intros its t d rest s ps par H Kf R Fl K. rewrite pairs_loop_S. destruct H as [|f e its w t w' t' Hf W He W' Hw Hi].
  - cbn [app] in R. cbn [ev_items]. destruct n as [|m]; [apply agr_nofuel|].
    rewrite parse_field_value_pair_S. apply agr_bind_assoc.
    eapply agr_peek_unwrap; [exact R|]. cbn [N.eqb Pos.eqb andb].
    apply agr_bind_assoc. eapply agr_next; [exact R|]. apply agr_ret_step. apply agr_ret; auto.
  - eapply agr_congr; [intros x; symmetry; apply ev_items_cons|].
    set (X := t' ++ 125 :: rest).
    assert (T : tail (Some 125) w' X true X).
    { split; [apply (folb_item _ its); auto; apply folb_close; reflexivity|].
      left. repeat split; auto. destruct its as [|[f2 e2] its].
      - apply r_items_nil in Hi as ->. exists 125, rest. auto.
      - inversion Hi as [|f' e' its' w1 t1 w2 t2 Hf2]; subst. destruct (item_head f2 Hf2) as (c & r & -> & Hc & _).
        eexists c, _. split; [reflexivity|auto]. }
    eapply agr_congr; [intros x; refine (eq_trans (ebind_assoc (ev_item d f e ps par) (fun r => eret (true, fst r, snd r))
       (fun y => ev_items (EE d) its (snd (fst y)) (snd y)) x) _); reflexivity|].
    eapply agr_bind.
    + eapply (AP n IH f e w t w' X true X); eauto.
      rewrite R. subst X. rewrite <- !app_assoc. cbn [app]. rewrite <- !app_assoc. reflexivity.
    + cbn beta. intros [[more ps'] par'] s1 R1 F1 K1 [V0 V1]. cbn [fst snd] in *. subst more.
      eapply (APs n IH its t'); eauto. congruence.
Qed.

Lemma step_root : A_root (S n).
Proof.
  intros its t c d s ps par N H L Kf R Fl K. rewrite pairs_loop_S.
  destruct H as [|f e its w t w' t' Hf W He W' Hw Hi]; [congruence|].
  eapply agr_congr; [intros x; symmetry; apply ev_items_cons|].
  destruct its as [|it its].
  - apply r_items_nil in Hi as ->.
    eapply agr_congr; [intros x; refine (eq_trans (ebind_assoc (ev_item d f e ps par) (fun r => eret (false, fst r, snd r))
       (fun y => ev_items (EE d) [] (snd (fst y)) (snd y)) x) _); reflexivity|].
    eapply agr_bind.
    + eapply (AP n IH f e w t w' c false []); eauto.
      * split; [|right; auto]. destruct w'; [apply folb_last; auto|apply folb_ws; auto; discriminate].
      * rewrite R. rewrite <- !app_assoc. cbn [app]. rewrite <- !app_assoc. reflexivity.
    + cbn beta. intros [[more ps'] par'] s1 R1 F1 K1 [V0 V1]. cbn [fst snd] in *. subst more.
      apply agr_ret; auto.
  - set (X := t' ++ c).
    assert (T : tail None w' X true X).
    { split; [apply (folb_item _ (it :: its)); auto; apply folb_last; auto|].
      left. repeat split; auto. 
      inversion Hi as [|f' e' its' w1 t1 w2 t2 Hf2]; subst. destruct (item_head _ Hf2) as (c' & r & -> & Hc & _).
      eexists c', _. split; [reflexivity|auto]. }
    eapply agr_congr; [intros x; refine (eq_trans (ebind_assoc (ev_item d f e ps par) (fun r => eret (true, fst r, snd r))
       (fun y => ev_items (EE d) (it :: its) (snd (fst y)) (snd y)) x) _); reflexivity|].
    eapply agr_bind.
    + eapply (AP n IH f e w t w' X true X); eauto.
      rewrite R. subst X. rewrite <- !app_assoc. cbn [app]. rewrite <- !app_assoc. reflexivity.
    + cbn beta. intros [[more ps'] par'] s1 R1 F1 K1 [V0 V1]. cbn [fst snd] in *. subst more.
      eapply (ARt n IH (it :: its) t' c); eauto; [discriminate|congruence].
Qed.

Lemma existsb_map f (ps : list pair_t) :
  existsb (fun x => str_eqb x f) (map fst ps) = existsb (fun p => str_eqb (fst p) f) ps.
Proof. induction ps; cbn; congruence. Qed.
Lemma item_fname f : item_name f -> kind_of_item f = KField -> fname f.
Proof.
  intros (c & r & [->| ->] & Hc & _) Kd; [|discriminate].
  exists c, r. split; auto. destruct Hc as [Hc| ->]; [apply letter_not_digit; auto|reflexivity].
Qed.

(** the end of a pair *)
Lemma pair_end brace w' X more rest s ps par : ws w' -> tail brace w' X more rest -> s_rest s = w' ++ X ->
  okst s -> okf (ps, par) ->
  agr (fun r => fst (fst r) = more /\ okf (snd (fst r), snd r)) idp
    (let* found := find_char in
     if negb found then
       match brace with
       | Some _ => let* l := getline in fail (UnexpectedEnd l)
       | None => ret (false, ps, par)
       end
     else ret (true, ps, par)) (eret (more, ps, par)) rest s.
Proof.
  intros W (_ & [(-> & -> & c & r & -> & Hc)|(-> & -> & -> & L)]) R K Kf.
  - eapply agr_find; eauto. intros l k. apply agr_ret; auto.
  - eapply agr_find_end; eauto. intros l k. apply agr_ret; auto.
Qed.

Lemma step_pair : A_pair (S n).
Proof.
  intros f e w t w' X more rest d brace s ps par Hf W He W' T Kf R Fl K.
  rewrite parse_field_value_pair_S.
  destruct (item_head f Hf) as (c & r & Ef & _ & Hc2).
  eapply agr_peek_unwrap; [rewrite R, Ef; reflexivity|].
  assert (C125 : (c =? 125) = false).
  { apply N.eqb_neq. intros ->. discriminate. }
  rewrite C125, Hc2. cbn [andb]. apply agr_getpos.
  pose proof (parse_field_item f (w ++ t ++ w' ++ X) s (s_line s) (s_col s) Hf R) as PF.
  unfold ev_item. destruct (kind_of_item f) eqn:Kd.
  4:{ destruct PF as (er & s' & E). eapply agr_step_err; [exact E|]. right; reflexivity. }
  all: destruct PF as (l1 & k1 & E); eapply agr_step; [exact E|reflexivity|reflexivity|]; cbv iota;
    set (s1 := set_stream s (w ++ t ++ w' ++ X) l1 k1) in *.
  all: destruct (r_expr_head _ _ He) as (c3 & r3 & Et & Hc3 & _).
  - (* global *)
    apply agr_bind_assoc. eapply agr_step; [reflexivity|reflexivity|reflexivity|].
    unfold ebind at 1 2. eapply (agr_ext _ _ _ (match assoc f (s_globals s1) with
       | Some _ => efail
       | None => do v <- EE d ps e;; do _ <- edefine f v;; eret (more, ps, par) end)).
    { unfold eglobals. cbn [fst st]. destruct (assoc f (s_globals s1)); [reflexivity|].
      unfold ebind, edefine, eret. destruct (EE d ps e (st s1)) as [[? ?]|]; reflexivity. }
    destruct (assoc f (s_globals s1)) eqn:Ag; [right; reflexivity|].
    apply agr_ret_step. eapply agr_find; [exact W|cbn; rewrite Et; reflexivity|exact Hc3|]. intros l2 k2.
    cbn [negb]. apply agr_getpos. eapply agr_bind.
    + eapply (AE n IH e t d ps _ _ brace (w' ++ X)); eauto; [apply T|apply Kf|cbn; rewrite Et; reflexivity].
    + cbn beta. intros v s2 R2 F2 K2 V2. apply agr_bind_assoc.
      eapply (agr_bind (fun _ : unit => True) idp).
      * unfold agr, insert_global, edefine. repeat split; try reflexivity; try apply K2.
        constructor; [exact V2|apply K2].
      * cbn beta. intros _ s3 R3 F3 K3 _. apply agr_ret_step.
        apply pair_end with (w' := w') (X := X); auto. rewrite R3. exact R2.
  - (* parent *)
    destruct par as [o0|]; [right; reflexivity|]. apply agr_ret_step.
    eapply agr_find; [exact W|cbn; rewrite Et; reflexivity|exact Hc3|]. intros l2 k2.
    cbn [negb]. apply agr_getpos.
    eapply agr_congr; [intros x; symmetry; apply ebind_assoc|]. eapply agr_bind.
    + eapply (AE n IH e t d ps _ _ brace (w' ++ X)); eauto; [apply T|apply Kf|cbn; rewrite Et; reflexivity].
    + cbn beta. intros v s2 R2 F2 K2 V2. destruct v; try (right; reflexivity).
      cbn [get_obj]. apply agr_ret_step. eapply agr_congr; [intros x; reflexivity|].
      apply pair_end with (w' := w') (X := X); auto.
      destruct Kf as (Kf1 & Kf2 & _). split; [auto|split; auto]. cbn. intros o0 E0. injection E0 as <-. auto.
  - (* field *)
    rewrite <- (existsb_map f ps). fold (mem_str f (map fst ps)).
    destruct (mem_str f (map fst ps)) eqn:Mm; [right; reflexivity|]. apply agr_ret_step.
    eapply agr_find; [exact W|cbn; rewrite Et; reflexivity|exact Hc3|]. intros l2 k2.
    cbn [negb]. apply agr_getpos.
    eapply agr_congr; [intros x; symmetry; apply ebind_assoc|]. eapply agr_bind.
    + eapply (AE n IH e t d ps _ _ brace (w' ++ X)); eauto; [apply T|apply Kf|cbn; rewrite Et; reflexivity].
    + cbn beta. intros v s2 R2 F2 K2 V2. apply agr_ret_step. eapply agr_congr; [intros x; reflexivity|].
      apply pair_end with (w' := w') (X := X); auto.
      destruct Kf as (Kf1 & Kf2 & Kf3). split; [|split; auto]; cbn [fst] in *.
      * apply Forall_app; split; auto.
      * rewrite map_app. apply Forall_app; split; auto. repeat constructor. apply item_fname; auto.
Qed.

(** *** Arr and Tup *)
Lemma step_arrl : A_arrl (S n).
Proof.
  intros es w t d pairs rest s vs tcur any W H Kp Vs An R Fl K. rewrite arr_loop_S.
  destruct H as [|e es t w2 t' He W2 Hw Hes].
  - cbn [app] in R. cbn [ev_arrl].
    eapply agr_find; [exact W|exact R|reflexivity|]. intros l k. cbn [negb].
    eapply agr_peek_unwrap; [reflexivity|]. cbn [N.eqb Pos.eqb]. eapply agr_next; [reflexivity|].
    apply agr_ret; auto.
  - destruct (r_expr_head _ _ He) as (c3 & r3 & Et & Hc3 & Hc4).
    rewrite <- !app_assoc in R. cbn [ev_arrl].
    eapply agr_find; [exact W|rewrite R, Et; reflexivity|exact Hc3|]. intros l k. cbn [negb].
    eapply agr_peek_unwrap; [reflexivity|].
    replace (c3 =? 93) with false by (symmetry; apply N.eqb_neq; intros ->; discriminate).
    rewrite Hc4. apply agr_getpos. eapply agr_bind.
    + eapply (AE n IH e t d pairs _ _ (Some 93) (w2 ++ t' ++ 93 :: rest)); eauto.
      * apply (folb_elem _ es); auto. apply folb_close. reflexivity.
      * cbn. rewrite Et. reflexivity.
    + cbn beta. intros v s2 R2 F2 K2 V2.
      pose proof (check_step_lub tcur any (get_type v) An) as CS.
      destruct (arr_check_step tcur any (get_type v)) as [[t2 any2]|[t1 t2]].
      * destruct CS as [-> ->]. eapply (AAl n IH es w2 t'); eauto; [|rewrite F2; exact Fl].
        apply Forall_app; split; auto.
      * rewrite CS. apply agr_fail. reflexivity.
Qed.
Lemma step_arr : A_arr (S n).
Proof.
  intros es w t d pairs rest s W H Kp R Fl K. rewrite parse_arr_S. apply deep_agr.
  eapply agr_next_unwrap; [exact R|]. apply agr_assert; [reflexivity|].
  apply (agr_congr _ _ _ (do r <- ev_arrl d pairs [] TAny es;;
    do i <- fresh;; eret (VArr (MkArr i (snd r) (fst r))))).
  { intros x. unfold ebind at 1. rewrite ev_arrl_spec. unfold arr_ev, ebind.
    destruct (emap (EE d pairs) es x) as [[vs y]|]; auto. change (lub_from TAny) with lub.
    destruct (lub (map get_type vs)); reflexivity. }
  eapply agr_bind.
  - eapply (AAl n IH es w t); eauto. reflexivity.
  - cbn beta. intros [vs ty] s1 R1 F1 K1 V1. unfold new_arr. apply agr_bind_assoc. rewrite <- R1.
    eapply agr_bind; [apply gen_id_agr; auto|]. cbn beta. intros i s2 R2 F2 K2 _.
    apply agr_ret_step. apply agr_ret; auto. apply okv_arr. exact V1.
Qed.
Lemma step_tupl : A_tupl (S n).
Proof.
  intros es w t d pairs rest s vs W H Kp Vs R Fl K. rewrite tup_loop_S.
  destruct H as [|e es t w2 t' He W2 Hw Hes].
  - cbn [app] in R. cbn [ev_tupl].
    eapply agr_find; [exact W|exact R|reflexivity|]. intros l k. cbn [negb].
    eapply agr_peek_unwrap; [reflexivity|]. cbn [N.eqb Pos.eqb]. eapply agr_next; [reflexivity|].
    apply agr_ret; auto.
  - destruct (r_expr_head _ _ He) as (c3 & r3 & Et & Hc3 & Hc4).
    rewrite <- !app_assoc in R. cbn [ev_tupl].
    eapply agr_find; [exact W|rewrite R, Et; reflexivity|exact Hc3|]. intros l k. cbn [negb].
    eapply agr_peek_unwrap; [reflexivity|].
    replace (c3 =? 41) with false by (symmetry; apply N.eqb_neq; intros ->; discriminate).
    rewrite Hc4. apply agr_getpos. eapply agr_bind.
    + eapply (AE n IH e t d pairs _ _ (Some 41) (w2 ++ t' ++ 41 :: rest)); eauto.
      * apply (folb_elem _ es); auto. apply folb_close. reflexivity.
      * cbn. rewrite Et. reflexivity.
    + cbn beta. intros v s2 R2 F2 K2 V2. eapply (ATl n IH es w2 t'); eauto; [|rewrite F2; exact Fl].
      apply Forall_app; split; auto.
Qed.
Lemma step_tup : A_tup (S n).
Proof.
  intros es w t d pairs rest s W H Kp R Fl K. rewrite parse_tup_S. apply deep_agr.
  eapply agr_next_unwrap; [exact R|]. apply agr_assert; [reflexivity|].
  apply (agr_congr _ _ _ (do r <- ev_tupl d pairs [] es;;
    do i <- fresh;; eret (VTup (MkTup i (map get_type r) r)))).
  { intros x. unfold ebind at 1. rewrite ev_tupl_spec. unfold tup_ev, ebind.
    destruct (emap (EE d pairs) es x) as [[vs y]|]; auto. }
  eapply agr_bind.
  - apply (ATl n IH es w t d pairs rest); auto.
  - cbn beta. intros vs s1 R1 F1 K1 V1. unfold new_tup. apply agr_bind_assoc. rewrite <- R1.
    eapply agr_bind; [apply gen_id_agr; auto|]. cbn beta. intros i s2 R2 F2 K2 _.
    apply agr_ret_step. apply agr_ret; auto. apply okv_tup. exact V1.
Qed.

(** *** Names *)
Lemma sub_head sub t : dot_sub sub -> r_atom sub t -> exists c r, t = c :: r /\
  match sub with
  | AVar true _ | ADot true _ _ => c = 64
  | _ => c <> 64 /\ is_valid_field_char c true || is_numeric_char c = true
  end.
Proof.
  intros D H. destruct H as [w (c & r & -> & Hc & Hu & _)|cs _|glob m (c & r & -> & Hc & _)|glob m sub t (c & r & -> & Hc & _)|
    op a t _|es w t _ _|es w t _ _|its w t _ _|e w t w' _ _ _|e e2 w t w' t2 w2 _ _ _ _ _ _]; try contradiction.
  - exists c, r. split; auto. pose proof (num_head_range c Hc Hu) as R. split; [lia|].
    rewrite orb_true_iff. right. unfold is_numeric_char. rewrite !orb_true_iff, !N.eqb_eq, digit_range. lia.
  - destruct glob; eexists _, _; (split; [reflexivity|]); auto.
    pose proof (lod_range c (letter_lod c Hc)). split; [lia|]. rewrite (letter_field _ Hc). auto.
  - destruct glob; eexists _, _; (split; [reflexivity|]); auto.
    pose proof (lod_range c (letter_lod c Hc)). split; [lia|]. rewrite (letter_field _ Hc). auto.
Qed.

(** the first part of [parse_variable], on a name followed by [rest] *)
Definition var_front : M (var_scan * bool) :=
  let* ch := peek_unwrap in
  let* var0 := (if ch =? 64 then let* c := next_unwrap in ret [c] else ret []) in
  let* r := (fun s => let '(x, (r, l, k)) := scan_var (s_rest s) (s_line s) (s_col s) var0 in
                      (Ok x, set_stream s r l k)) in
  ret (r, ch =? 64).
Lemma var_front_end glob m rest s : var_name glob m -> fol rest ->
  s_rest s = ((if glob then [64] else []) ++ m) ++ rest ->
  exists l k, var_front s = (Ok (VS_end ((if glob then [64] else []) ++ m), glob), set_stream s rest l k).
Proof.
  intros (c & r & -> & Hc & Hr) F R. unfold var_front, peek_unwrap, peek, bind. rewrite R.
  assert (Hm : Forall letter_or_digit (c :: r)) by (constructor; auto; destruct glob; auto using letter_lod).
  destruct glob.
  - cbn [app unwrap ret]. change (64 =? 64) with true. cbv iota. unfold next_unwrap, bind, next, ret. rewrite R. cbn [app].
    destruct (adv 64 (s_line s) (s_col s)) as [l k]. cbn [unwrap]. unfold ret. cbn [s_rest s_line s_col set_stream].
    destruct (scan_var_end (c :: r) rest Hm F l k [64]) as (l' & k' & E). cbn [app] in E. rewrite E. exists l', k'. reflexivity.
  - cbn [app unwrap ret]. pose proof (lod_range c (letter_lod c Hc)).
    replace (c =? 64) with false by (symmetry; apply N.eqb_neq; lia). unfold ret. rewrite R.
    destruct (scan_var_end (c :: r) rest Hm F (s_line s) (s_col s) []) as (l' & k' & E). cbn [app] in *. rewrite E. exists l', k'. reflexivity.
Qed.
Lemma var_front_dot glob m rest s : var_name glob m ->
  s_rest s = (if glob then [64] else []) ++ m ++ 46 :: rest ->
  exists l k, var_front s = (Ok (VS_dot ((if glob then [64] else []) ++ m), glob), set_stream s rest l k).
Proof.
  intros (c & r & -> & Hc & Hr) R. unfold var_front, peek_unwrap, peek, bind. rewrite R.
  assert (Hm : Forall letter_or_digit (c :: r)) by (constructor; auto; destruct glob; auto using letter_lod).
  destruct glob.
  - cbn [app unwrap ret]. change (64 =? 64) with true. cbv iota. unfold next_unwrap, bind, next, ret. rewrite R. cbn [app].
    destruct (adv 64 (s_line s) (s_col s)) as [l k]. cbn [unwrap]. unfold ret. cbn [s_rest s_line s_col set_stream].
    destruct (scan_var_dot (c :: r) rest Hm l k [64]) as (l' & k' & E). cbn [app] in E. rewrite E. exists l', k'. reflexivity.
  - cbn [app unwrap ret]. pose proof (lod_range c (letter_lod c Hc)).
    replace (c =? 64) with false by (symmetry; apply N.eqb_neq; lia). unfold ret. rewrite R.
    destruct (scan_var_dot (c :: r) rest Hm (s_line s) (s_col s) []) as (l' & k' & E). cbn [app] in *. rewrite E. exists l', k'. reflexivity.
Qed.

Definition var_back pairs line col d brace (x : var_scan * bool) : M value :=
  let '(r, is_global) := x in
  let* '(var, dot, dot_global) :=
    (match r with
     | VS_end v => ret (v, false, false)
     | VS_bad c => let* '(l, k) := getpos in fail (InvalidValueChar c l k)
     | VS_dot v =>
         let* o := peek in
         match o with
         | None => let* l := getline in fail (UnexpectedEnd l)
         | Some c =>
             if c =? c_at then ret (v, true, true)
             else if is_valid_field_char c true || is_numeric_char c then ret (v, true, false)
             else let* '(l, k) := getpos in fail (InvalidValueChar c l k)
         end
     end) in
  let* value := lookup_variable pairs var is_global line col in
  if (dot : bool) then
    match value with
    | VArr a =>
        let* '(line, col) := getpos in
        let* idx := PV n pairs line col (d + 1) brace false in
        index_by (arr_get a) idx line col
    | VTup t =>
        let* '(line, col) := getpos in
        let* idx := PV n pairs line col (d + 1) brace false in
        index_by (tup_get t) idx line col
    | VObj o =>
        let* '(line, col) := getpos in
        if (dot_global : bool) then fail (InvalidValueChar c_at line col)
        else parse_variable fs load_inc n (obj_pairs o) line col (d + 1) brace
    | _ => fail (InvalidDot (get_type value) line col)
    end
  else ret value.
Lemma parse_variable_fb pairs line col d brace s :
  parse_variable fs load_inc (S n) pairs line col d brace s =
  bind var_front (var_back pairs line col d brace) s.
Proof.
  rewrite parse_variable_S. unfold var_front, var_back. cbv zeta. unfold bind.
  destruct (peek_unwrap s) as [[ch|e| |] s1]; auto.
  destruct (ch =? 64).
  - destruct (next_unwrap s1) as [[c|e| |] s2]; auto. cbn [ret].
    unfold ret at 1 6. destruct (scan_var (s_rest s2) (s_line s2) (s_col s2) [c]) as [x [[r l] k]]. reflexivity.
  - unfold ret at 1 6. destruct (scan_var (s_rest s1) (s_line s1) (s_col s1) []) as [x [[r l] k]]. reflexivity.
Qed.

Lemma agr_eq {A B} (P : B -> Prop) (pr : A -> B) m m' (ev : ES B) rest s :
  m s = m' s -> agr P pr m' ev rest s -> agr P pr m ev rest s.
Proof. unfold agr. intros ->. auto. Qed.

(** a number cannot name a field *)
Lemma fname_none f ps : Forall fname (map fst ps) -> ~ fname f -> @assoc value f ps = None.
Proof.
  intros H N. apply assoc_none. intros I. rewrite Forall_forall in H. apply N, H, I.
Qed.
Lemma scan_var_num w rest : Forall (fun c => num_char c = true) w -> fol rest -> forall l k v, v = [] \/ ~ fname v ->
  hd_error w <> Some 95 \/ v <> [] ->
  exists x q, scan_var (w ++ rest) l k v = (x, q) /\
    match x with VS_end u | VS_dot u => ~ fname u | VS_bad _ => True end.
Proof.
  intros H F. induction H as [|c w Hc Hw IHw]; intros l k v Hv H0.
  - assert (Hv' : ~ fname v).
    { destruct Hv as [->|Hv]; auto. intros (c & r & E & _). discriminate. }
    cbn [app]. destruct F as [->|(c & r & -> & V)]; [cbn; eauto|].
    cbn [scan_var]. destruct (adv c l k). rewrite V. destruct (c =? 46); eauto.
  - cbn [app scan_var]. destruct (adv c l k) as [l' k'].
    assert (Hv' : ~ fname v).
    { destruct Hv as [->|Hv]; auto. intros (c' & r & E & _). discriminate. }
    destruct (c =? 46) eqn:E46; [do 2 eexists; split; [reflexivity|exact Hv']|].
    rewrite (num_char_not_end _ Hc). destruct (is_valid_field_char c false) eqn:V;
      [|do 2 eexists; split; [reflexivity|exact I]].
    apply IHw; [|right; destruct v; discriminate]. right.
    intros (c' & r & E & Dg). destruct v as [|v0 v].
    + cbn in E. injection E as <- _. destruct (num_cases c Hc) as [(D & _)|[(_ & Pt & _)|(_ & _ & ->)]].
      * congruence.
      * unfold is_point in Pt. rewrite E46 in Pt. cbn in Pt. apply N.eqb_eq in Pt as ->. discriminate V.
      * cbn in H0. destruct H0; congruence.
    + cbn in E. injection E as -> E. destruct Hv as [Hv|Hv]; [discriminate|]. apply Hv. exists c', v. auto.
Qed.

Lemma num_var_fails w ps line col d brace rest s m : num_text w -> fol rest ->
  Forall fname (map fst ps) -> s_rest s = w ++ rest ->
  match parse_variable fs load_inc m ps line col d brace s with (Ok _, _) => False | _ => True end.
Proof.
  intros (c & r & -> & Hc & Hu & Hr) F Hps R. destruct m as [|m]; [exact I|].
  rewrite parse_variable_S. cbv zeta. unfold bind at 1, peek_unwrap, peek, bind at 1. rewrite R. cbn [app unwrap ret].
  pose proof (num_head_range c Hc Hu) as Rg.
  replace (c =? 64) with false by (symmetry; apply N.eqb_neq; lia).
  unfold bind at 1, ret at 1. unfold bind at 1. rewrite R.
  destruct (scan_var_num (c :: r) rest ltac:(constructor; auto) F (s_line s) (s_col s) [] ltac:(auto)) as (x & [[r' l'] k'] & -> & Hx).
  { left. cbn. congruence. }
  destruct x as [u|u|c']; [| |cbn; auto].
  - unfold bind at 1, ret at 1. unfold lookup_variable.
    assert (Y : forall t, fname t -> str_eqb u t = false) by (intros t Ht; apply str_eqb_neq; congruence).
    rewrite !Y by (eexists _, _; split; reflexivity). rewrite (fname_none u ps) by auto. reflexivity.
  - unfold bind at 1. unfold bind at 1, peek. cbn [s_rest set_stream].
    assert (Y : forall t, fname t -> str_eqb u t = false) by (intros t Ht; apply str_eqb_neq; congruence).
    assert (G : forall (b : value -> M value) (st : pstate), match bind (lookup_variable ps u false line col) b st with (Ok v, _) => (False : Prop) | _ => True end).
    { intros b st0. unfold bind, lookup_variable. rewrite !Y by (eexists _, _; split; reflexivity).
      rewrite (fname_none u ps) by auto. reflexivity. }
    destruct r' as [|c' r'']; [reflexivity|]. destruct (c' =? 64); [apply G|].
    destruct (is_valid_field_char c' true || is_numeric_char c'); [apply G|reflexivity].
Qed.

Lemma step_var : A_var (S n).
Proof.
  intros a t d pairs line col brace rest s Nm H F Kp R Fl K.
  eapply agr_eq; [apply parse_variable_fb|].
  destruct H as [w Hw|cs Hcs|glob m Hn|glob m sub t Hn Hs H|
    op a t H|es w t W H|es w t W H|its w t W H|e w t w' W H W'|e e2 w t w' t2 w2 W H W' N' H2 W2]; try contradiction.
  - destruct (var_front_end glob m rest s Hn F R) as (l & k & E).
    eapply agr_step; [exact E|reflexivity|reflexivity|]. unfold var_back. cbv iota.
    apply agr_ret_step. cbv iota. eapply agr_congr; [intros x; apply ebind_ret|].
    change (EA d pairs (AVar glob m)) with (ev_name pairs glob m).
    eapply agr_bind; [apply lookup_agr; auto|]. cbn beta. intros v s1 R1 F1 K1 V1. apply agr_ret; auto.
  - rewrite <- !app_assoc in R. cbn [app] in R.
    destruct (var_front_dot glob m (t ++ rest) s Hn R) as (l & k & E).
    eapply agr_step; [exact E|reflexivity|reflexivity|]. unfold var_back. cbv iota.
    destruct (sub_head sub t Hs H) as (c & r & Et & Hc).
    apply agr_bind_assoc. eapply agr_peek; [cbn; rewrite Et; reflexivity|].
    set (s1 := set_stream s (t ++ rest) l k).
    assert (G : agr okv idp
      (let* value := lookup_variable pairs ((if glob then [64] else []) ++ m) glob line col in
       match value with
        | VArr a =>
            let* '(line, col) := getpos in
            let* idx := PV n pairs line col (d + 1) brace false in
            index_by (arr_get a) idx line col
        | VTup t =>
            let* '(line, col) := getpos in
            let* idx := PV n pairs line col (d + 1) brace false in
            index_by (tup_get t) idx line col
        | VObj o =>
            let* '(line, col) := getpos in
            if (c =? 64) then fail (InvalidValueChar c_at line col)
            else parse_variable fs load_inc n (obj_pairs o) line col (d + 1) brace
        | _ => fail (InvalidDot (get_type value) line col)
        end) (EA d pairs (ADot glob m sub)) rest s1).
    { change (EA d pairs (ADot glob m sub)) with (
        do v <- ev_name pairs glob m;;
        match v with
        | VArr a => do i <- EA (d + 1) pairs sub;; elift (ev_index (arr_values a) i)
        | VTup t => do i <- EA (d + 1) pairs sub;; elift (ev_index (tup_values t) i)
        | VObj o =>
            match sub with
            | AVar false _ | ADot false _ _ => EA (d + 1) (obj_pairs o) sub
            | _ => efail
            end
        | _ => efail
        end).
      eapply agr_bind; [apply lookup_agr; auto|]. cbn beta. intros v s2 R2 F2 K2 V2.
      destruct v as [|b|z|q|u|a|tp|o]; try (right; reflexivity).
      - apply agr_getpos. eapply agr_bind.
        + apply (AV n IH sub t (d + 1) pairs _ _ brace rest); auto. rewrite F2; exact Fl.
        + cbn beta. intros idx s3 R3 F3 K3 V3. rewrite <- R3. apply index_agr; auto.
          * destruct a; apply okv_arr in V2; exact V2.
          * intros i. apply arr_get_nth.
      - apply agr_getpos. eapply agr_bind.
        + apply (AV n IH sub t (d + 1) pairs _ _ brace rest); auto. rewrite F2; exact Fl.
        + cbn beta. intros idx s3 R3 F3 K3 V3. rewrite <- R3. apply index_agr; auto.
          * destruct tp; apply okv_tup in V2; exact V2.
          * intros i. apply tup_get_nth.
      - apply agr_getpos.
        assert (Ko : Forall fname (map fst (obj_pairs o)) /\ okps (obj_pairs o)).
        { destruct o as [i ps par]. apply okv_obj in V2 as (Ka & Kb & _). auto. }
        destruct Ko as [Ka Kb].
        destruct sub as [w|cs|g2 m2|g2 m2 sub2| | | | |]; try contradiction.
        + destruct Hc as [Hc _]. replace (c =? 64) with false by (symmetry; apply N.eqb_neq; auto).
          inversion H as [w' Hw| | | | | | | | |]; subst w'.
          assert (Hw' : num_text t) by congruence.
          pose proof (fun l k => num_var_fails t (obj_pairs o) l k (d + 1) brace rest s2 n Hw' F Ka R2) as NF.
          specialize (NF (s_line s2) (s_col s2)). unfold agr.
          destruct (parse_variable fs load_inc n (obj_pairs o) (s_line s2) (s_col s2) (d + 1) brace s2) as [[]]; auto. contradiction.
        + destruct g2; [subst c; cbn [N.eqb Pos.eqb]; apply agr_fail; reflexivity|].
          destruct Hc as [Hc _]. replace (c =? 64) with false by (symmetry; apply N.eqb_neq; auto).
          apply (AVr n IH (AVar false m2) t); auto; first [exact I|rewrite F2; exact Fl].
        + destruct g2; [subst c; cbn [N.eqb Pos.eqb]; apply agr_fail; reflexivity|].
          destruct Hc as [Hc _]. replace (c =? 64) with false by (symmetry; apply N.eqb_neq; auto).
          apply (AVr n IH (ADot false m2 sub2) t); auto; first [exact I|rewrite F2; exact Fl]. }
    destruct (c =? 64) eqn:C64.
    + apply agr_ret_step. exact G.
    + replace (is_valid_field_char c true || is_numeric_char c) with true.
      2:{ symmetry. apply N.eqb_neq in C64. destruct sub as [| |[]|[]| | | | |]; try contradiction; tauto. }
      apply agr_ret_step. exact G.
Qed.

(** *** Includes *)
Lemma value_at_gt m pairs line col d brace first r s : s_rest s = 62 :: r ->
  match PV m pairs line col d brace first s with (Ok _, _) => False | _ => True end.
Proof.
  intros R. destruct m as [|m]; [exact I|]. rewrite parse_value_S. unfold bind at 1, peek_unwrap, peek, bind at 1.
  rewrite R. cbn [unwrap ret N.eqb Pos.eqb].
  replace (is_valid_field_char 62 true) with false by (unfold is_valid_field_char, ch_is_alphabetic; reflexivity).
  reflexivity.
Qed.

Lemma step_inc : A_inc (S n).
Proof.
  intros e path t d pairs rest s H Kp R Fl K. rewrite parse_include_S. apply deep_agr.
  assert (exists w te w' X, t ++ rest = 60 :: w ++ te ++ w' ++ X /\ ws w /\ r_expr e te /\ ws w' /\
    match path with
    | None => X = 62 :: rest
    | Some e2 => w' <> [] /\ exists t2 w2, r_expr e2 t2 /\ ws w2 /\ X = t2 ++ w2 ++ 62 :: rest
    end) as (w & te & w' & X & E & W & He & W' & HX).
  { inversion H as [| | | | | | | |e0 w te w' W He W'|e0 e2 w te w' t2 w2 W He W' N' H2 W2]; subst.
    - exists w, te, w', (62 :: rest). cbn [app]. rewrite <- !app_assoc. auto 10.
    - exists w, te, w', (t2 ++ w2 ++ 62 :: rest). cbn [app]. rewrite <- !app_assoc. repeat (split; auto). exists t2, w2. auto. }
  rewrite E in R. clear E H t.
  eapply agr_next_unwrap; [exact R|]. apply agr_assert; [reflexivity|].
  destruct (r_expr_head _ _ He) as (c3 & r3 & Et & Hc3 & Hc4).
  eapply agr_find; [exact W|cbn; rewrite Et; reflexivity|exact Hc3|]. intros l k. cbn [negb].
  apply agr_getpos. unfold inc_ev.
  assert (F62 : folb (Some 62) (w' ++ X)).
  { destruct path as [e2|].
    - destruct HX as [N' _]. apply folb_ws; auto.
    - subst X. destruct w'; [apply folb_close; reflexivity|apply folb_ws; auto; discriminate]. }
  eapply agr_bind.
  { apply (AE n IH e te d pairs _ _ (Some 62) (w' ++ X)); auto. cbn. rewrite Et. reflexivity. }
  cbn beta. intros v s2 R2 F2 K2 V2.
  assert (Fl2 : s_file s2 = file) by (rewrite F2; exact Fl).
  apply (agr_congr _ _ _ (do k <- tok_ev v;;
     match k with
     | None => match v, path with VStr f, None => inc IObj f | _, _ => efail end
     | Some k => match path with
                 | Some e2 => do v2 <- EE d pairs e2;; match v2 with VStr f => inc k f | _ => efail end
                 | None => efail end
     end)).
  { intros x. destruct v; try reflexivity. unfold tok_ev. rewrite ebind_assoc. apply ebind_ext.
    intros [k'|] y; reflexivity. }
  rewrite <- R2.
  eapply agr_bind; [apply token_agr; auto|]. cbn beta. intros tok s3 R3 F3 K3 V3.
  rewrite R2 in R3.
  assert (Fl3 : s_file s3 = file) by congruence.
  assert (CLOSE : forall ty u ln cl s4 w4 r4, ws w4 -> s_rest s4 = w4 ++ 62 :: r4 -> r4 = rest ->
    s_file s4 = file -> okst s4 ->
    agr okv idp
      (let* found := find_char in
       if negb found then let* l := getline in fail (UnexpectedEnd l)
       else
         let* c := next_unwrap in
         if negb (c =? c_gt) then
           let* l := getline in
           let* k := col_minus_1 in
           fail (InvalidClosingBracket (Some c_gt) c l k)
         else
           match u with
           | VStr include_file => finish_include fs load_inc ty include_file ln cl
           | _ => fail (ExpectedType TStr (get_type u) ln cl)
           end) (match u with VStr f => inc ty f | _ => efail end) rest s4).
  { intros ty u ln cl s4 w4 r4 W4 R4 -> F4 K4.
    eapply agr_find; [exact W4|exact R4|reflexivity|]. intros l4 k4. cbn [negb].
    eapply agr_next_unwrap; [reflexivity|]. cbn [negb N.eqb Pos.eqb].
    destruct u; try (right; reflexivity).
    match goal with |- agr _ _ _ _ _ ?x => change rest with (s_rest x) end.
    apply finish_agr; auto. }
  destruct tok as [ty|[]]; cbn [tok_pr].
  - apply agr_bind_assoc. destruct path as [e2|].
    + destruct HX as (N' & t2 & w2 & H2 & W2 & ->).
      destruct (r_expr_head _ _ H2) as (c5 & r5 & Et2 & Hc5 & Hc6).
      eapply agr_find; [exact W'|rewrite R3, Et2; reflexivity|exact Hc5|]. intros l5 k5. cbn [negb].
      apply agr_bind_assoc. apply agr_getpos. apply agr_bind_assoc. eapply agr_bind.
      { apply (AE n IH e2 t2 d pairs _ _ (Some 62) (w2 ++ 62 :: rest)); auto.
        - destruct w2; [apply folb_close; reflexivity|apply folb_ws; auto; discriminate].
        - cbn. rewrite Et2. reflexivity. }
      cbn beta. intros v2 s4 R4 F4 K4 V4. apply agr_ret_step. cbv iota.
      apply (CLOSE ty v2 _ _ s4 w2 rest); auto. rewrite F4. exact Fl3.
    + subst X. eapply agr_find; [exact W'|exact R3|reflexivity|]. intros l5 k5. cbn [negb].
      apply agr_bind_assoc. apply agr_getpos. apply agr_bind_assoc.
      match goal with |- agr _ _ (bind (PV ?m ?p ?l ?k ?d ?b ?f) _) _ _ ?x =>
        pose proof (value_at_gt m p l k d b f rest x eq_refl) as NV end.
      unfold agr, bind at 1. destruct (PV _ _ _ _ _ _ _ _) as [[]]; auto; contradiction.
  - apply agr_ret_step. cbv iota.
    destruct path as [e2|].
    + destruct HX as (N' & t2 & w2 & H2 & W2 & ->).
      destruct (r_expr_head _ _ H2) as (c5 & r5 & Et2 & Hc5 & Hc6).
      eapply agr_find; [exact W'|rewrite R3, Et2; reflexivity|exact Hc5|]. intros l5 k5. cbn [negb].
      eapply agr_next_unwrap; [reflexivity|].
      assert (c5 <> 62) by (intros ->; discriminate Hc6).
      replace (c5 =? c_gt) with false by (symmetry; apply N.eqb_neq; auto). cbn [negb].
      apply agr_getline. unfold agr, bind, col_minus_1.
      match goal with |- context[if ?b then _ else _] => destruct b end; [exact I|].
      right. destruct v; reflexivity.
    + subst X. destruct v as [| | | |u| | |]; try contradiction; try (exfalso; apply V3; reflexivity).
      eapply agr_ext; [|apply (CLOSE IObj (VStr u) _ _ s3 w' rest); auto]. reflexivity.
Qed.
End Step.

Lemma A_all_holds n : A_all n.
Proof.
  induction n as [|n IH].
  - constructor; red; intros; apply agr_nofuel.
  - constructor.
    + apply step_val, IH.
    + apply step_exp, IH.
    + apply step_ops, IH.
    + apply step_un, IH.
    + apply step_obj, IH.
    + apply step_pairs, IH.
    + apply step_root, IH.
    + apply step_pair, IH.
    + apply step_arr, IH.
    + apply step_arrl, IH.
    + apply step_tup, IH.
    + apply step_tupl, IH.
    + apply step_var, IH.
    + apply step_inc, IH.
Qed.
End Main.
