(** * PropStep: one more line.  What a field added to any document that loads evaluates to; the statements speak
    about texts and loaded values only (C16, C17, C20, C28, C29, C30, C08). *)
From Verif Require Import Complete LangSpec PropLoad PropScope PropLang PropLit PropComplete PropNames PropOps Prefix.
From Verif Require Import EvalProofs.
From Coq Require String.
Import String.StringSyntax.
Open Scope N_scope.

Section P.
Context `{U : Unicode}.

(** [text] loads to [o], and [h] is the name of a new field. *)
Definition before (fs : fsys) (g : gstate) (text : str) (o : obj) (h : str) : Prop :=
  from_str fs g text = Some (OOk o) /\ legal_field h /\ assoc h (obj_pairs o) = None.
(** the text with the line [h: t] after it *)
Definition more (text h t : str) : str := text ++ c_nl :: h ++ lit ": " ++ t.
(** ... loads to [o] with the field [h] of value [v] added *)
Definition adds (fs : fsys) (g : gstate) (text : str) (o : obj) (h t : str) (v : value) : Prop :=
  exists o', from_str fs g (more text h t) = Some (OOk o') /\
             obj_pairs o' = obj_pairs o ++ [(h, v)] /\ obj_parent o' = obj_parent o.
(** ... is an error *)
Definition refused (fs : fsys) (g : gstate) (text h t : str) : Prop :=
  exists e, from_str fs g (more text h t) = Some (OErr e).

(** *** The engine *)
Lemma one_more fs g text o h e t : before fs g text o h -> r_expr e t ->
  exists y, match ev_expr (include_meaning fs None) limit64 1 (obj_pairs o) e y with
            | Some (v, _) => adds fs g text o h t v
            | None => refused fs g text h t
            end.
Proof.
  intros (E & Hh & Nh) R. assert (E0 := E). apply C41_accepted_iff in E as (its & x & D & M).
  assert (Nf : ~ In h (field_names its)).
  { rewrite <- (C27_field_order fs g its text o D E0). intros X. apply in_map_iff in X as ([f v] & Ef & X). cbn in Ef. subst f.
    clear - X Nh. induction (obj_pairs o) as [|[f' v'] ps IH]; [destruct X|]. cbn [assoc] in Nh.
    destruct (str_eqb_spec f' h) as [->|N]; [discriminate|]. destruct X as [X|X]; [inversion X; congruence|auto]. }
  assert (D' : r_doc (its ++ [(h, e)]) (more text h t)).
  { apply doc_cat; auto. exists [], (h ++ lit ": " ++ t), []. split; [rewrite app_nil_r; reflexivity|]. split; [constructor|].
    split; [|left; auto]. replace (h ++ lit ": " ++ t) with (h ++ c_colon :: lit " " ++ t ++ [] ++ []) by (rewrite !app_nil_r; reflexivity).
    apply r_icons; auto; try (repeat constructor; fail). apply legal_item; auto. }
  apply doc_items in M as (r & y & E & ->). cbn [obj_pairs] in *. exists y.
  pose proof (doc_snoc fs g its h e r y Hh Nf E) as S.
  destruct (ev_expr _ _ _ _ _ _) as [[v z]|].
  - destruct S as (x' & S). eexists. split; [apply (str_ok fs g _ _ D'); eauto|split; reflexivity].
  - apply (str_err fs g _ _ D'). exact S.
Qed.

(** a field of a loaded Obj *)
Lemma field_legal fs g text o f v : from_str fs g text = Some (OOk o) -> assoc f (obj_pairs o) = Some v -> legal_field f.
Proof.
  intros E A. assert (L : loaded fs g o) by (left; eauto).
  destruct (C07_loaded_field_names fs g o o L (part_self _)) as [_ F]. rewrite Forall_forall in F. apply F. eapply assoc_dom; eauto.
Qed.
Lemma ev_field inc lim d f v fields y : legal_field f -> assoc f fields = Some v ->
  ev_atom inc lim d fields (AVar false f) y = Some (v, y).
Proof.
  intros H A. change (ev_name fields false f y = Some (v, y)). rewrite (name_field _ _ (legal_not_builtin f H)), A. reflexivity.
Qed.
Lemma r_field f : legal_field f -> r_atom (AVar false f) f.
Proof. intros H. apply (r_var false f). apply legal_var; auto. Qed.

(** ** C20: [h: f] *)
Theorem C20_line fs g text o h f : before fs g text o h -> legal_field f ->
  (forall v, assoc f (obj_pairs o) = Some v -> adds fs g text o h f v) /\
  (assoc f (obj_pairs o) = None -> refused fs g text h f).
Proof.
  intros B Hf. destruct (one_more fs g text o h _ _ B (atom_expr _ _ (r_field f Hf))) as (y & K).
  rewrite ev_atom_expr in K. change (ev_atom _ _ _ ?fs' (AVar false f) y) with (ev_name fs' false f y) in K.
  rewrite (name_field _ _ (legal_not_builtin f Hf)) in K. split; [intros v A|intros A]; rewrite A in K; exact K.
Qed.
(** Inside an object literal the fields outside are not seen: [h: {k: f}] is an error, whatever [f] is outside. *)
Theorem C20_line_inside fs g text o h k f : before fs g text o h -> legal_field k -> legal_field f ->
  refused fs g text h (lit "{" ++ k ++ lit ": " ++ f ++ lit "}").
Proof.
  intros B Hk Hf.
  assert (R : r_atom (AObj [(k, Ex (AVar false f) [])]) (lit "{" ++ k ++ lit ": " ++ f ++ lit "}")).
  { replace (lit "{" ++ k ++ lit ": " ++ f ++ lit "}") with (c_lbrace :: [] ++ (k ++ c_colon :: lit " " ++ f ++ [] ++ []) ++ [c_rbrace])
      by (cbn [app]; rewrite !app_nil_r, <- !app_assoc; reflexivity).
    apply r_obj; [constructor|]. apply r_icons; auto; try (repeat constructor; fail); [apply legal_item; auto|apply atom_expr, r_field; auto]. }
  destruct (one_more fs g text o h _ _ B (atom_expr _ _ R)) as (y & K).
  rewrite ev_atom_expr, ev_obj in K. unfold deep in K. change (limit64 (1 + 1)) with true in K. cbn iota in K.
  unfold ebind at 1 in K. rewrite ev_items_cons, (legal_kind k Hk) in K. cbn [mem_str map existsb] in K.
  unfold ebind at 1 in K. rewrite ev_atom_expr in K. change (ev_atom _ _ _ ?fs' (AVar false f) y) with (ev_name fs' false f y) in K.
  rewrite (name_field _ _ (legal_not_builtin f Hf)) in K. exact K.
Qed.

(** ** C16, C17, C28: [h: f+k], [h: -f] *)
Lemma two_fields fs g text o h f k v w op : before fs g text o h ->
  assoc f (obj_pairs o) = Some v -> assoc k (obj_pairs o) = Some w ->
  exists y, match ev_op op v w y with
            | Some (r, _) => adds fs g text o h (f ++ op_text op :: k) r
            | None => refused fs g text h (f ++ op_text op :: k)
            end.
Proof.
  intros B Af Ak. pose proof (field_legal _ _ _ _ _ _ (proj1 B) Af) as Hf. pose proof (field_legal _ _ _ _ _ _ (proj1 B) Ak) as Hk.
  destruct (one_more fs g text o h (Ex (AVar false f) [(op, AVar false k)]) (f ++ op_text op :: k) B) as (y & K).
  { replace (f ++ op_text op :: k) with (f ++ (op_text op :: k ++ [])) by (rewrite app_nil_r; reflexivity).
    apply r_ex; [apply r_field; auto|]. apply r_ccons; [apply r_field; auto|constructor]. }
  exists y. rewrite ev_expr_Ex in K. unfold ebind at 1 in K. rewrite (ev_field _ _ _ f v _ y Hf Af) in K.
  cbn [emap] in K. unfold ebind in K. rewrite (ev_field _ _ _ k w _ y Hk Ak) in K. unfold eret in K. cbn [ev_chain add_up is_priority] in K.
  destruct op; cbn [ev_chain add_up is_priority] in K; unfold ebind, eret in K; try exact K; unfold ev_op;
  destruct (elift _ y) as [[]|]; exact K.
Qed.
Theorem C17_line fs g text o h f k v w op : before fs g text o h ->
  assoc f (obj_pairs o) = Some v -> assoc k (obj_pairs o) = Some w -> number v <> None -> number w <> None ->
  (forall r, arith op v w r -> adds fs g text o h (f ++ op_text op :: k) r) /\
  ((forall r, ~ arith op v w r) -> refused fs g text h (f ++ op_text op :: k)).
Proof.
  intros B Af Ak Nv Nw. destruct (two_fields fs g text o h f k v w op B Af Ak) as (y & K).
  pose proof (fun r z => C17_in_documents op v w y r z Nv Nw) as C. split.
  - intros r A. rewrite (proj2 (C r y) (conj A eq_refl)) in K. exact K.
  - intros A. destruct (ev_op op v w y) as [[r z]|] eqn:E; [|exact K]. destruct (proj1 (C r z) eq_refl) as [X _]. exfalso. eapply A; eauto.
Qed.
Theorem C17_line_other_types fs g text o h f k v w op : before fs g text o h ->
  assoc f (obj_pairs o) = Some v -> assoc k (obj_pairs o) = Some w -> number v = None \/ number w = None ->
  ~ (op = BPlus /\ exists a b, v = VStr a /\ w = VStr b) ->
  ~ (op = BPlus /\ exists a b, v = VArr a /\ w = VArr b) -> refused fs g text h (f ++ op_text op :: k).
Proof.
  intros B Af Ak H S A. destruct (two_fields fs g text o h f k v w op B Af Ak) as (y & K).
  replace (ev_op op v w y) with (@None (value * est)) in K; [exact K|].
  destruct v, w; try (destruct H; discriminate); destruct op; try reflexivity; exfalso; [apply S|apply A]; eauto.
Qed.
Theorem C28_line fs g text o h f k : before fs g text o h ->
  (forall a b, assoc f (obj_pairs o) = Some (VStr a) -> assoc k (obj_pairs o) = Some (VStr b) ->
     adds fs g text o h (f ++ lit "+" ++ k) (VStr (a ++ b))) /\
  (forall a b, assoc f (obj_pairs o) = Some (VArr a) -> assoc k (obj_pairs o) = Some (VArr b) ->
     (forall t, least_spec (arr_inner_type a) (arr_inner_type b) t ->
        exists i, adds fs g text o h (f ++ lit "+" ++ k) (VArr (MkArr i t (arr_values a ++ arr_values b)))) /\
     (~ (exists t, common_spec (arr_inner_type a) (arr_inner_type b) t) -> refused fs g text h (f ++ lit "+" ++ k))).
Proof.
  intros B. split; intros a b Af Ak; destruct (two_fields fs g text o h f k _ _ BPlus B Af Ak) as (y & K);
    change (f ++ op_text BPlus :: k) with (f ++ lit "+" ++ k) in K; pose proof (C28_in_documents) as C.
  - exact K.
  - split.
    + intros t L. destruct y as [gl sh]. destruct (C a b (gl, sh) (VArr (MkArr (g_next (sh_g sh)) t (arr_values a ++ arr_values b))) (gl, set_g sh (bump (sh_g sh)))) as [C1 _].
      rewrite (proj2 C1) in K; [eauto|]. exists t. repeat split; auto; apply L.
    + intros N. destruct (ev_op BPlus (VArr a) (VArr b) y) as [[r z]|] eqn:E; [|exact K]. exfalso. apply N.
      destruct (C a b y r z) as [C1 _]. apply C1 in E as (t & L & _). exists t. apply L.
Qed.
Theorem C16_line_sign fs g text o h f v op : before fs g text o h -> assoc f (obj_pairs o) = Some v ->
  (forall z, v = VInt z -> adds fs g text o h (unop_text op :: f) (VInt (match op with UPlus => z | UMinus => (- z)%Z end))) /\
  (forall q, v = VFrac q -> adds fs g text o h (unop_text op :: f) (VFrac (match op with UPlus => q | UMinus => (- q)%Q end))) /\
  (number v = None -> refused fs g text h (unop_text op :: f)).
Proof.
  intros B A. pose proof (field_legal _ _ _ _ _ _ (proj1 B) A) as Hf.
  destruct (one_more fs g text o h _ _ B (atom_expr _ _ (r_un op _ _ (r_field f Hf)))) as (y & K).
  rewrite ev_atom_expr, C16_unary, (ev_field _ _ _ f v _ y Hf A) in K.
  split; [intros z ->; exact K|]. split; [intros q ->; exact K|]. intros N. destruct v; try discriminate; exact K.
Qed.

(** ** C29, C30: [h: f.3], [h: f.k], [h: f.m] *)
Lemma dot_line fs g text o h f sub t : before fs g text o h -> legal_field f -> dot_sub sub -> r_atom sub t ->
  exists y, match ev_atom (include_meaning fs None) limit64 1 (obj_pairs o) (ADot false f sub) y with
            | Some (v, _) => adds fs g text o h (f ++ lit "." ++ t) v
            | None => refused fs g text h (f ++ lit "." ++ t)
            end.
Proof.
  intros B Hf D R. destruct (one_more fs g text o h _ _ B (atom_expr _ _ (r_dot false f sub t (legal_var f Hf) D R))) as (y & K).
  exists y. rewrite ev_atom_expr in K. exact K.
Qed.
Theorem C29_line fs g text o h f c vs oob n : before fs g text o h -> assoc f (obj_pairs o) = Some c -> elements c = Some (vs, oob) ->
  (forall v, n < 2 ^ 64 -> nth_error vs (N.to_nat n) = Some v -> adds fs g text o h (f ++ lit "." ++ N_to_dec n) v) /\
  (2 ^ 64 <= n \/ nth_error vs (N.to_nat n) = None -> refused fs g text h (f ++ lit "." ++ N_to_dec n)).
Proof.
  intros B A El. pose proof (field_legal _ _ _ _ _ _ (proj1 B) A) as Hf.
  assert (T : num_text (N_to_dec n)) by (rewrite <- (app_nil_r (N_to_dec n)); apply dec_num_text; constructor).
  destruct (dot_line fs g text o h f (ANum (N_to_dec n)) _ B Hf I (r_num _ T)) as (y & K).
  rewrite <- ev_atom_expr in K. rewrite (dot_elem _ _ _ _ f c vs oob _ (VInt (Z.of_N n)) y (legal_not_builtin f Hf) A El) in K
    by (change (elift (num_value (N_to_dec n)) y = Some (VInt (Z.of_N n), y)); rewrite int_value; reflexivity).
  unfold ev_index in K. replace (Z.to_nat (Z.of_N n)) with (N.to_nat n) in K by lia. split.
  - intros v L N. replace ((0 <=? Z.of_N n)%Z && (Z.of_N n <? 2 ^ 64)%Z) with true in K
      by (symmetry; apply andb_true_iff; split; [apply Z.leb_le; lia|apply Z.ltb_lt; lia]).
    rewrite N in K. exact K.
  - intros [L|N].
    + replace (Z.of_N n <? 2 ^ 64)%Z with false in K by (symmetry; apply Z.ltb_ge; lia). rewrite andb_false_r in K. exact K.
    + rewrite N in K. destruct (_ && _); exact K.
Qed.
Theorem C29_line_by_field fs g text o h f c vs oob k i : before fs g text o h ->
  assoc f (obj_pairs o) = Some c -> elements c = Some (vs, oob) -> assoc k (obj_pairs o) = Some i ->
  (forall z v, i = VInt z -> (0 <= z < 2 ^ 64)%Z -> nth_error vs (Z.to_nat z) = Some v -> adds fs g text o h (f ++ lit "." ++ k) v) /\
  (forall z, i = VInt z -> (z < 0 \/ 2 ^ 64 <= z \/ Z.of_nat (length vs) <= z)%Z -> refused fs g text h (f ++ lit "." ++ k)) /\
  ((forall z, i <> VInt z) -> refused fs g text h (f ++ lit "." ++ k)).
Proof.
  intros B A El Ak. pose proof (field_legal _ _ _ _ _ _ (proj1 B) A) as Hf. pose proof (field_legal _ _ _ _ _ _ (proj1 B) Ak) as Hk.
  destruct (dot_line fs g text o h f (AVar false k) _ B Hf I (r_field k Hk)) as (y & K).
  rewrite <- ev_atom_expr in K. rewrite (dot_elem _ _ _ _ f c vs oob _ i y (legal_not_builtin f Hf) A El) in K by (apply ev_field; auto).
  unfold ev_index in K. split; [|split].
  - intros z v -> L N. replace ((0 <=? z)%Z && (z <? 2 ^ 64)%Z) with true in K
      by (symmetry; apply andb_true_iff; split; [apply Z.leb_le; lia|apply Z.ltb_lt; lia]).
    rewrite N in K. exact K.
  - intros z -> L. destruct (Z.leb_spec 0 z), (Z.ltb_spec z (2 ^ 64)); cbn [andb] in K; try exact K.
    replace (nth_error vs (Z.to_nat z)) with (@None value) in K; [exact K|]. symmetry. apply nth_error_None. lia.
  - intros N. destruct i as [|b1|z|a|a|a|t1|o1]; try exact K. exfalso. eapply N; eauto.
Qed.
Theorem C30_line fs g text o h f p m : before fs g text o h -> assoc f (obj_pairs o) = Some (VObj p) -> legal_field m ->
  (forall v, assoc m (obj_pairs p) = Some v -> adds fs g text o h (f ++ lit "." ++ m) v) /\
  (assoc m (obj_pairs p) = None -> refused fs g text h (f ++ lit "." ++ m)).
Proof.
  intros B A Hm. pose proof (field_legal _ _ _ _ _ _ (proj1 B) A) as Hf.
  destruct (dot_line fs g text o h f (AVar false m) _ B Hf I (r_field m Hm)) as (y & K).
  rewrite (C30_dot_is_own_field _ _ _ _ _ _ m y p y Hm) in K
    by (rewrite (name_field _ _ (legal_not_builtin f Hf)), A; reflexivity).
  split; [intros v E|intros E]; rewrite E in K; exact K.
Qed.
(** A path through Objs: [f.m1.m2...] *)
Fixpoint follow (ps : list pair_t) (m : str) (ms : list str) : option value :=
  match ms with
  | [] => assoc m ps
  | m' :: ms' => match assoc m ps with Some (VObj p) => follow (obj_pairs p) m' ms' | _ => None end
  end.
Fixpoint dotted (m : str) (ms : list str) : str :=
  match ms with [] => m | m' :: ms' => m ++ lit "." ++ dotted m' ms' end.
Fixpoint dots (m : str) (ms : list str) : atom :=
  match ms with [] => AVar false m | m' :: ms' => ADot false m (dots m' ms') end.
Lemma dots_text m ms : Forall legal_field (m :: ms) -> r_atom (dots m ms) (dotted m ms) /\ dot_sub (dots m ms).
Proof.
  revert m. induction ms as [|m' ms IH]; intros m F; inversion F as [|? ? Hm F']; subst.
  - split; [apply r_field; auto|exact I].
  - destruct (IH m' F') as [R D]. split; [|exact I]. apply (r_dot false m); auto. apply legal_var; auto.
Qed.
Lemma dots_value inc lim ms : forall m ps d y v, Forall legal_field (m :: ms) -> follow ps m ms = Some v ->
  ev_atom inc lim d ps (dots m ms) y = Some (v, y).
Proof.
  induction ms as [|m' ms IH]; intros m ps d y v F E; inversion F as [|? ? Hm F']; subst.
  - apply ev_field; auto.
  - cbn [follow] in E. destruct (assoc m ps) as [c|] eqn:A; [|discriminate]. destruct c as [|b1|z|a|a|a|t1|p]; try discriminate.
    cbn [dots]. rewrite ev_dot. unfold ebind. rewrite (name_field _ _ (legal_not_builtin m Hm)), A. cbn [elift]. unfold eret at 1.
    specialize (IH m' (obj_pairs p) (d + 1) y v F' E). destruct ms as [|m2 ms]; exact IH.
Qed.
Theorem C30_line_path fs g text o h f ms v : before fs g text o h -> Forall legal_field (f :: ms) ->
  follow (obj_pairs o) f ms = Some v -> adds fs g text o h (dotted f ms) v.
Proof.
  intros B F E. destruct (one_more fs g text o h _ _ B (atom_expr _ _ (proj1 (dots_text f ms F)))) as (y & K).
  rewrite ev_atom_expr, (dots_value _ _ ms f _ _ y v F E) in K. exact K.
Qed.

(** ** C08: [h: [f1 f2 ...]], [h: (f1 f2 ...)] *)
Definition listed (l : list str) : str := flat_map (fun f => f ++ lit " ") l.
Lemma listed_text l : Forall legal_field l -> r_elems (map (fun f => Ex (AVar false f) []) l) (listed l).
Proof.
  induction 1 as [|f l Hf F IH]; [constructor|]. cbn [map listed flat_map]. rewrite <- app_assoc.
  apply r_econs; auto; [apply atom_expr, r_field; auto|repeat constructor|right; discriminate].
Qed.
Lemma listed_values inc lim d ps y l vs : Forall legal_field l -> Forall2 (fun f v => assoc f ps = Some v) l vs ->
  emap (ev_expr inc lim d ps) (map (fun f => Ex (AVar false f) []) l) y = Some (vs, y).
Proof.
  intros F H. induction H as [|f v l vs A H IH]; [reflexivity|]. inversion F as [|? ? Hf F']; subst.
  cbn [map emap]. unfold ebind. rewrite ev_atom_expr, (ev_field _ _ _ f v _ y Hf A). specialize (IH F'). cbn [emap] in IH. rewrite IH. reflexivity.
Qed.
Lemma lub_least ts t : lub ts = Some t -> least_spec_all ts t.
Proof.
  unfold lub. intros H.
  assert (G : forall ts done u, least_spec_all done u ->
    match fold_left (fun o t => match o with
                        | Some u => match most_specific u t with Some (x, _) => Some x | None => None end
                        | None => None
                        end) ts (Some u) with
    | Some t => least_spec_all (done ++ ts) t
    | None => ~ exists t, common_spec_all (done ++ ts) t
    end).
  { clear. induction ts as [|a ts IH]; intros done u D; cbn [fold_left]; [rewrite app_nil_r; exact D|].
    destruct (most_specific u a) as [[x f]|] eqn:M.
    - specialize (IH (done ++ [a]) x). rewrite <- app_assoc in IH. apply IH.
      eapply least_spec_all_snoc; [exact D|]. apply most_specific_some. eauto.
    - rewrite lub_none. intros (t & H). pose proof (most_specific_spec u a) as N. rewrite M in N. apply N. exists t.
      apply Forall_app in H as [H1 H2]. split; [apply D; exact H1|inversion H2; auto]. }
  specialize (G ts [] TAny least_spec_all_nil). rewrite H in G. exact G.
Qed.
Theorem C08_line fs g text o h l vs : before fs g text o h -> Forall2 (fun f v => assoc f (obj_pairs o) = Some v) l vs ->
  (forall t, least_spec_all (map get_type vs) t -> exists i, adds fs g text o h (lit "[" ++ listed l ++ lit "]") (VArr (MkArr i t vs))) /\
  ((forall t, ~ least_spec_all (map get_type vs) t) -> refused fs g text h (lit "[" ++ listed l ++ lit "]")) /\
  (exists i, adds fs g text o h (lit "(" ++ listed l ++ lit ")") (VTup (MkTup i (map get_type vs) vs))).
Proof.
  intros B H.
  assert (F : Forall legal_field l) by (clear - B H; induction H; constructor; auto; eapply field_legal; [apply B|eauto]).
  destruct (one_more fs g text o h _ _ B (atom_expr _ _ (r_arr _ [] _ ws_nil (listed_text l F)))) as (y & K).
  destruct (one_more fs g text o h _ _ B (atom_expr _ _ (r_tup _ [] _ ws_nil (listed_text l F)))) as ([gl' sh'] & K').
  change (lit "[" ++ listed l ++ lit "]") with (c_lbrack :: [] ++ listed l ++ [c_rbrack]).
  change (lit "(" ++ listed l ++ lit ")") with (c_lparen :: [] ++ listed l ++ [c_rparen]).
  rewrite ev_atom_expr, ev_arr in K. rewrite ev_atom_expr, ev_tup in K'. unfold deep in K, K'.
  change (limit64 (1 + 1)) with true in K, K'. cbn iota in K, K'.
  unfold ebind at 1 in K. rewrite (listed_values _ _ _ _ y l vs F H) in K.
  unfold ebind at 1 in K'. rewrite (listed_values _ _ _ _ (gl', sh') l vs F H) in K'. split; [|split].
  - intros t L. rewrite (lub_spec _ _ L) in K. destruct y as [gl sh]. unfold ebind in K. cbn [fresh] in K. exists (g_next (sh_g sh)); exact K.
  - intros N. destruct (lub (map get_type vs)) as [t|] eqn:L; [|exact K]. exfalso. eapply N. apply lub_least; eauto.
  - unfold ebind in K'. cbn [fresh] in K'. exists (g_next (sh_g sh')); exact K'.
Qed.

End P.

(** ** Concrete cases: each line is added to the same document *)
Section Ex.
#[local] Instance ascii : Unicode := {| u_alpha := fun _ => false; u_debug := fun c => [c] |}.
Definition sample : str := lit "a: 7 b: 2. c: [1 2 3] d: ""x"" p: {q: {r: 5}} # end".
Definition loads_to (t : str) (w : list (str * value) -> Prop) : Prop :=
  exists o, before no_fs g0 t o (lit "h") /\ w (obj_pairs o).
Example line_ex : loads_to sample (fun ps =>
  assoc (lit "a") ps = Some (VInt 7) /\ assoc (lit "d") ps = Some (VStr (lit "x")) /\
  (exists c, assoc (lit "c") ps = Some (VArr c) /\ elements (VArr c) <> None) /\
  follow ps (lit "p") [lit "q"; lit "r"] = Some (VInt 5) /\
  Forall2 (fun f v => assoc f ps = Some v) [lit "a"; lit "a"] [VInt 7; VInt 7] /\
  least_spec_all [get_type (VInt 7); get_type (VInt 7)] TInt).
Proof.
  eexists. split; [split; [vm_compute; reflexivity|split; [|reflexivity]]|].
  { exists 104, []. split; [reflexivity|]. split; [left; reflexivity|]. split; [constructor|]. intros X. vm_compute in X. intuition discriminate. }
  split; [reflexivity|]. split; [reflexivity|]. split; [eexists; split; [reflexivity|discriminate]|]. split; [reflexivity|].
  split; [repeat constructor|]. apply lub_least. reflexivity.
Qed.
Example line_ex_more : exists o o', from_str no_fs g0 sample = Some (OOk o) /\
  from_str no_fs g0 (more sample (lit "h") (lit "p.q.r")) = Some (OOk o') /\
  obj_pairs o' = obj_pairs o ++ [(lit "h", VInt 5)].
Proof. eexists _, _. split; [vm_compute; reflexivity|]. split; vm_compute; reflexivity. Qed.
End Ex.

Print Assumptions C20_line.
Print Assumptions C20_line_inside.
Print Assumptions C17_line.
Print Assumptions C17_line_other_types.
Print Assumptions C28_line.
Print Assumptions C16_line_sign.
Print Assumptions C29_line.
Print Assumptions C29_line_by_field.
Print Assumptions C30_line.
Print Assumptions C30_line_path.
Print Assumptions C08_line.
