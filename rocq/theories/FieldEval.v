(** * FieldEval: exchanging the names of two fields: evaluation. *)
From Verif Require Export FieldNames EvalProofs.
From Coq Require String.
Import String.StringSyntax.
Open Scope N_scope.

Section A.
Context `{U : Unicode}.
Variables x y : str.
Hypothesis Hx : legal_field x.
Hypothesis Hy : legal_field y.
Notation r := (swap x y).
Notation rv := (ren_value r).
Notation ro := (ren_obj r).
Lemma sw_sw n : r (r n) = n.
Proof.
  clear Hx Hy. unfold swap. destruct (str_eqb_spec n x) as [->|Nx].
  - destruct (str_eqb_spec y x) as [->|]; auto. destruct (str_eqb_spec y y); congruence.
  - destruct (str_eqb_spec n y) as [->|Ny].
    + destruct (str_eqb_spec x x); congruence.
    + destruct (str_eqb_spec n x), (str_eqb_spec n y); congruence.
Qed.
Lemma sw_inj n m : r n = r m -> n = m.
Proof. intros E. rewrite <- (sw_sw n), E. apply sw_sw. Qed.
Lemma sw_cases n : r n = n \/ (legal_field n /\ legal_field (r n)).
Proof. unfold swap. destruct (str_eqb_spec n x) as [E|]; [subst; auto|]. destruct (str_eqb_spec n y) as [E|]; [subst; auto|auto]. Qed.
Lemma sw_eqb n m : str_eqb (r n) (r m) = str_eqb n m.
Proof.
  destruct (str_eqb_spec n m) as [E|Ne].
  - subst. destruct (str_eqb_spec (r m) (r m)); congruence.
  - destruct (str_eqb_spec (r n) (r m)) as [E|]; [apply sw_inj in E; congruence|reflexivity].
Qed.
Lemma sw_reserved n : ~ legal_field n -> r n = n.
Proof. intros H. destruct (sw_cases n) as [E|[E _]]; [exact E|contradiction]. Qed.

(** ** Values *)
Lemma rv_type v : get_type (rv v) = get_type v.
Proof. destruct v as [| | | | |[]|[]|]; reflexivity. Qed.
Lemma rv_types vs : map get_type (map rv vs) = map get_type vs.
Proof. rewrite map_map. apply map_ext. apply rv_type. Qed.
Definition rps (ps : list pair_t) : list pair_t := map (fun p => match p with (f, v) => (r f, rv v) end) ps.
Lemma ro_pairs o : obj_pairs (ro o) = rps (obj_pairs o).
Proof. destruct o. reflexivity. Qed.
Lemma ro_id o : obj_id (ro o) = obj_id o.
Proof. destruct o. reflexivity. Qed.
Lemma assoc_rps n ps : assoc (r n) (rps ps) = option_map rv (assoc n ps).
Proof. induction ps as [|[f v] ps IH]; [reflexivity|]. cbn [rps map assoc]. rewrite sw_eqb. destruct (str_eqb f n); [reflexivity|exact IH]. Qed.
Lemma rv_un op v : un_value op (rv v) = option_map rv (un_value op v).
Proof. destruct v as [| | | | |[]|[]|[]], op; reflexivity. Qed.
Lemma rv_op op v w : op_value op (rv v) (rv w) = option_map rv (op_value op v w).
Proof.
  destruct v as [| | | | |[]|[]|[]], w as [| | | | |[]|[]|[]]; try reflexivity; destruct op; cbn; try reflexivity;
    repeat match goal with |- context [if ?b then _ else _] => destruct b end; reflexivity.
Qed.
Lemma rv_index vs i : ev_index (map rv vs) (rv i) = option_map rv (ev_index vs i).
Proof.
  destruct i as [| | | | |[]|[]|[]]; try reflexivity. cbn [ren_value ev_index]. destruct (_ && _); [|reflexivity].
  generalize (Z.to_nat z). intros n. revert vs. induction n as [|n IH]; intros [|v vs]; try reflexivity. apply IH.
Qed.

(** ** Evaluation *)
Definition rgl (gl : list (str * value)) : list (str * value) := map (fun p => (fst p, rv (snd p))) gl.
Definition rst (s : est) : est := (rgl (fst s), snd s).
Lemma assoc_rgl n gl : assoc n (rgl gl) = option_map rv (assoc n gl).
Proof. induction gl as [|[f v] gl IH]; [reflexivity|]. cbn [rgl map assoc fst snd]. destruct (str_eqb f n); [reflexivity|exact IH]. Qed.
Definition rres {A} (h : A -> A) (o : option (A * est)) : option (A * est) := match o with Some (a, s) => Some (h a, rst s) | None => None end.
(** [m'] does with the exchanged names what [m] does. *)
Definition eqv {A} (h : A -> A) (m m' : ES A) : Prop := forall s, m' (rst s) = rres h (m s).
Lemma q_bind {A B} h k (m m' : ES A) (f f' : A -> ES B) : eqv h m m' -> (forall a, eqv k (f a) (f' (h a))) -> eqv k (ebind m f) (ebind m' f').
Proof. intros H K s. unfold ebind. rewrite H. destruct (m s) as [[a q]|]; cbn [rres]; [apply K|reflexivity]. Qed.
Lemma q_ret {A} h (a b : A) : b = h a -> eqv h (eret a) (eret b).
Proof. intros -> s. reflexivity. Qed.
Lemma q_fail {A} h : eqv h (@efail A) efail.
Proof. intros s. reflexivity. Qed.
Lemma q_lift {A} h (o o' : option A) : o' = option_map h o -> eqv h (elift o) (elift o').
Proof. intros ->. destruct o; [apply q_ret; reflexivity|apply q_fail]. Qed.
Notation idf := (fun a => a).
Lemma q_fresh : eqv idf fresh fresh.
Proof. intros [gl sh]. reflexivity. Qed.
Lemma q_sentinel k : eqv ro (esentinel k) (esentinel k).
Proof. intros [gl sh]. unfold esentinel, rst. cbn [fst snd]. destruct (g_sent _ _); reflexivity. Qed.
Lemma q_keyword o ks : eqv idf (ev_keyword o ks) (ev_keyword (ro o) ks).
Proof.
  induction ks as [|k ks IH]; cbn [ev_keyword]; [apply q_ret; reflexivity|]. apply (q_bind ro); [apply q_sentinel|]. intros s. rewrite !ro_id.
  destruct (_ =? _); [apply q_ret; reflexivity|exact IH].
Qed.
Lemma q_op op v w : eqv rv (ev_op op v w) (ev_op op (rv v) (rv w)).
Proof.
  assert (D : (exists a b, op = BPlus /\ v = VArr a /\ w = VArr b) \/ ((forall v w, (forall a b, ~ (v = VArr a /\ w = VArr b)) \/ op <> BPlus -> ev_op op v w = elift (op_value op v w)) /\
    ((forall a b, ~ (v = VArr a /\ w = VArr b)) \/ op <> BPlus))).
  { assert (G : forall v w, (forall a b, ~ (v = VArr a /\ w = VArr b)) \/ op <> BPlus -> ev_op op v w = elift (op_value op v w)).
    { intros v0 w0 [H|H]; unfold ev_op; destruct op; try reflexivity; try congruence; destruct v0, w0; try reflexivity. exfalso. eapply H. eauto. }
    destruct op; try (right; split; [exact G|right; discriminate]).
    destruct v; try (right; split; [exact G|left; intros ? ? [? ?]; discriminate]).
    destruct w; try (right; split; [exact G|left; intros ? ? [? ?]; discriminate]). left. eauto. }
  destruct D as [([i t vs] & [j u ws] & -> & -> & ->)|[G C]].
  - cbn [ren_value ev_op arr_inner_type arr_values]. destruct (most_specific t u) as [[tt ?]|]; [|apply q_fail].
    apply (q_bind idf); [apply q_fresh|]. intros n. apply q_ret. cbn [ren_value]. rewrite map_app. reflexivity.
  - rewrite G by exact C. rewrite G; [apply q_lift, rv_op|]. destruct C as [C|C]; [left|auto].
    intros a b [E1 E2]. destruct v as [| | | | |a'|[]|[]]; try discriminate E1. destruct w as [| | | | |b'|[]|[]]; try discriminate E2. eapply C. eauto.
Qed.
Definition racc (a : option (value * binop)) : option (value * binop) := match a with Some (v, op) => Some (rv v, op) | None => None end.
Lemma q_add acc cur : eqv rv (add_up acc cur) (add_up (racc acc) (rv cur)).
Proof. destruct acc as [[s op]|]; [apply q_op|apply q_ret; reflexivity]. Qed.
Lemma q_chain l : forall acc cur, eqv rv (ev_chain acc cur l) (ev_chain (racc acc) (rv cur) (map (fun p => (fst p, rv (snd p))) l)).
Proof.
  induction l as [|[op w] l IH]; intros acc cur; cbn [ev_chain map fst snd]; [apply q_add|]. destruct (is_priority op).
  - apply (q_bind rv); [apply q_lift, rv_op|]. intros p. apply IH.
  - apply (q_bind rv); [apply q_add|]. intros s. apply (IH (Some (s, op))).
Qed.
Lemma q_emap {A B C} (k : C -> C) (f : A -> ES C) (f' : B -> ES C) (h : A -> B) l : Forall (fun a => eqv k (f a) (f' (h a))) l -> eqv (map k) (emap f l) (emap f' (map h l)).
Proof.
  induction 1 as [|a l H F IH]; [apply q_ret; reflexivity|]. cbn [emap map]. apply (q_bind k); [exact H|]. intros v.
  apply (q_bind (map k)); [exact IH|]. intros vs. apply q_ret. reflexivity.
Qed.
Lemma assoc_kept {B} n (l : list (str * B)) : (forall f v, In (f, v) l -> ~ legal_field f) -> assoc (r n) l = assoc n l.
Proof.
  induction l as [|[f v] l IH]; intros H; [reflexivity|]. cbn [assoc]. rewrite <- (sw_reserved f) at 1 by (eapply H; left; reflexivity).
  rewrite sw_eqb. destruct (str_eqb f n); [reflexivity|]. apply IH. intros g w I. eapply H. right. exact I.
Qed.
Lemma not_legal f : In f reserved_words -> ~ legal_field f.
Proof. intros H (c & t & _ & _ & _ & N). contradiction. Qed.
Lemma keywords_kept n : assoc (r n) keywords = assoc n keywords.
Proof. apply assoc_kept. intros f v I. apply not_legal. cbn in I. repeat (destruct I as [I|I]; [injection I as <- _; cbn; tauto|]). destruct I. Qed.
Lemma constants_kept n : assoc (r n) constants = assoc n constants.
Proof. apply assoc_kept. intros f v I. apply not_legal. cbn in I. repeat (destruct I as [I|I]; [injection I as <- _; cbn; tauto|]). destruct I. Qed.
Lemma constants_plain n v : assoc n constants = Some v -> rv v = v.
Proof. cbn. repeat match goal with |- context [if ?b then _ else _] => destruct b end; intros E; inversion E; reflexivity. Qed.
Lemma q_name fields glob n : eqv rv (ev_name fields glob n) (ev_name (rps fields) glob (if glob then n else r n)).
Proof.
  unfold ev_name. destruct glob.
  - intros [gl sh]. unfold ebind, eglobals, rst. cbn [fst snd]. rewrite assoc_rgl. apply (q_lift rv _ _ eq_refl (gl, sh)).
  - rewrite constants_kept, keywords_kept. destruct (assoc n constants) eqn:C; [apply q_ret; symmetry; eapply constants_plain; eauto|].
    destruct (assoc n keywords); [|apply q_lift, assoc_rps]. apply (q_bind ro); [apply q_sentinel|]. intros o. apply q_ret. reflexivity.
Qed.
Lemma letter_marks c : (ch_is_alphabetic c = true \/ c = c_under) -> (c =? c_at) || (c =? c_caret) = false.
Proof.
  intros H. apply Bool.orb_false_iff. split; apply N.eqb_neq; intros ->; destruct H as [H|H]; discriminate.
Qed.
Lemma kind_ren f : kind_of_item (ren_item_f r f) = kind_of_item f.
Proof.
  destruct f as [|c f]; [reflexivity|]. cbn [ren_item_f]. destruct ((c =? c_at) || (c =? c_caret)) eqn:M; [reflexivity|].
  destruct (sw_cases (c :: f)) as [->|[(c1 & f1 & E1 & L1 & _ & R1) (c2 & f2 & E2 & L2 & _ & R2)]]; [reflexivity|].
  assert (G : forall d g, (ch_is_alphabetic d = true \/ d = c_under) -> ~ In (d :: g) reserved_words -> kind_of_item (d :: g) = KField).
  { intros d g L R. assert (Q : kind_of_item (d :: g) = if mem_str (d :: g) reserved_words then KIllegal else KField).
    { apply letter_marks in L. apply Bool.orb_false_iff in L as [A B]. apply N.eqb_neq in A, B. unfold kind_of_item.
      destruct d as [|p]; [reflexivity|]. repeat (destruct p as [p|p|]; try reflexivity); exfalso; auto. }
    rewrite Q. destruct (mem_str (d :: g) reserved_words) eqn:I; [|reflexivity]. exfalso. apply R. apply mem_str_iff. exact I. }
  rewrite E2, G; [|exact L2|rewrite <- E2; exact R2]. rewrite E1 in *. rewrite G; auto.
Qed.
Lemma kind_field f : kind_of_item f = KField -> ren_item_f r f = r f.
Proof.
  destruct f as [|c f]; [intros _; symmetry; apply sw_reserved; intros (c & t & E & _); discriminate|]. cbn [ren_item_f].
  destruct (N.eqb_spec c c_at) as [->|]; [discriminate|]. destruct (N.eqb_spec c c_caret) as [->|]; [destruct f; discriminate|reflexivity].
Qed.
Lemma kind_global f : kind_of_item f = KGlobal -> ren_item_f r f = f.
Proof.
  destruct f as [|c f]; [reflexivity|]. cbn [ren_item_f]. intros K. destruct (N.eqb_spec c c_at) as [->|A]; [reflexivity|]. exfalso.
  unfold kind_of_item in K. destruct c as [|p]; [destruct (mem_str _ _); discriminate|].
  repeat (destruct p as [p|p|]; try (destruct (mem_str _ _); discriminate); try (destruct f; discriminate); try congruence).
Qed.
Lemma mem_rps f ps : mem_str (r f) (map fst (rps ps)) = mem_str f (map fst ps).
Proof. induction ps as [|[g v] ps IH]; [reflexivity|]. cbn [rps map fst mem_str existsb]. unfold mem_str in *. cbn [existsb]. rewrite sw_eqb. f_equal. exact IH. Qed.
Definition rfp (q : list pair_t * option obj) : list pair_t * option obj := (rps (fst q), option_map ro (snd q)).
Lemma q_items (ev ev' : list pair_t -> expr -> ES value) its :
  Forall (fun p => forall fields, eqv rv (ev fields (snd p)) (ev' (rps fields) (fe r (snd p)))) its ->
  forall fields par, eqv rfp (ev_items ev its fields par) (ev_items ev' (fi r its) (rps fields) (option_map ro par)).
Proof.
  induction 1 as [|[f e] its H F IH]; intros fields par; [apply q_ret; reflexivity|]. cbn [fi map fst snd] in *. rewrite !ev_items_cons, kind_ren.
  destruct (kind_of_item f) eqn:K.
  - rewrite (kind_global f K). apply (q_bind rgl); [intros [gl sh]; reflexivity|]. intros gl. rewrite assoc_rgl.
    destruct (assoc f gl); cbn [option_map]; [apply q_fail|].
    apply (q_bind rv); [apply H|]. intros v. apply (q_bind idf); [|intros; apply IH]. intros [gl' sh]. reflexivity.
  - destruct par; [apply q_fail|]. apply (q_bind rv); [apply H|]. intros v. destruct v as [| | | | |[]|[]|o]; try apply q_fail. apply (IH fields (Some o)).
  - rewrite (kind_field f K), mem_rps. destruct (mem_str _ _); [apply q_fail|]. apply (q_bind rv); [apply H|]. intros v.
    replace (rps fields ++ [(r f, rv v)]) with (rps (fields ++ [(f, v)])) by (unfold rps; rewrite map_app; reflexivity). apply IH.
  - apply q_fail.
Qed.

Section Ev.
Variables inc inc' : inc_ty -> str -> ES value.
Variable lim : N -> bool.
Hypothesis Hinc : forall k p, eqv rv (inc k p) (inc' k p).
Lemma q_deep {A} h d (m m' : ES A) : eqv h m m' -> eqv h (deep lim d m) (deep lim d m').
Proof. intros H. unfold deep. destruct (lim d); [exact H|apply q_fail]. Qed.
Theorem q_all : (forall a d fields, eqv rv (ev_atom inc lim d fields a) (ev_atom inc' lim d (rps fields) (fa r a))) /\
  (forall e d fields, eqv rv (ev_expr inc lim d fields e) (ev_expr inc' lim d (rps fields) (fe r e))).
Proof.
  apply ast_ind.
  - intros w d fields. apply q_lift. cbn [ev_atom]. unfold num_value.
    repeat match goal with |- context [match ?z with _ => _ end] => destruct z; try reflexivity end.
  - intros cs d fields. apply q_lift. destruct (str_value cs); reflexivity.
  - intros g n d fields. apply q_name.
  - intros g n sub IH d fields. cbn [fa]. rewrite !ev_dot. apply (q_bind rv); [apply q_name|].
    intros v. destruct v as [| | | | |[i t vs]|[i ts vs]|o]; try apply q_fail.
    + apply (q_bind rv); [apply IH|]. intros k. apply q_lift, rv_index.
    + apply (q_bind rv); [apply IH|]. intros k. apply q_lift, rv_index.
    + cbn [ren_value]. rewrite ro_pairs. destruct sub as [| |[] |[] | | | | |]; cbn [fa]; try apply q_fail; apply (IH (d + 1)).
  - intros op a IH d fields. cbn [fa ev_atom]. apply (q_bind rv); [apply IH|]. intros v. apply q_lift, rv_un.
  - intros es F d fields. cbn [fa]. rewrite !ev_arr. apply q_deep, (q_bind (map rv)).
    + apply q_emap. eapply Forall_impl; [|exact F]. intros e H. apply H.
    + intros vs. rewrite rv_types. destruct (lub _); [|apply q_fail]. apply (q_bind idf); [apply q_fresh|]. intros i. apply q_ret. reflexivity.
  - intros es F d fields. cbn [fa]. rewrite !ev_tup. apply q_deep, (q_bind (map rv)).
    + apply q_emap. eapply Forall_impl; [|exact F]. intros e H. apply H.
    + intros vs. rewrite rv_types. apply (q_bind idf); [apply q_fresh|]. intros i. apply q_ret. reflexivity.
  - intros its F d fields. cbn [fa]. rewrite !ev_obj. apply q_deep, (q_bind rfp).
    + apply (q_items _ _ its). eapply Forall_impl; [|exact F]. intros p H. intros fs. apply H.
    + intros [ps par]. apply (q_bind idf); [apply q_fresh|]. intros i. apply q_ret. cbn [fst snd rfp ren_value ren_obj]. destruct par; reflexivity.
  - intros e p IH IHp d fields. cbn [fa]. rewrite !ev_inc. apply q_deep, (q_bind rv); [apply IH|]. intros v. destruct v as [| | | | |[]|[]|o]; try apply q_fail.
    + destruct p; [apply q_fail|apply Hinc].
    + apply (q_bind idf); [apply q_keyword|]. intros k. destruct k as [k|]; [|apply q_fail]. destruct p as [e2|]; [|apply q_fail].
      apply (q_bind rv); [apply (IHp e2 eq_refl)|]. intros v2. destruct v2 as [| | | | |[]|[]|]; try apply q_fail. apply Hinc.
  - intros a l IH F d fields. cbn [fe ev_expr]. apply (q_bind rv); [apply IH|]. intros v.
    apply (q_bind (map (fun p => (fst p, rv (snd p))))); [|intros; apply (q_chain _ None)].
    apply (q_emap _ _ _ (fun p => (fst p, fa r (snd p)))). eapply Forall_impl; [|exact F]. intros [op b] H. cbn [fst snd] in *.
    apply (q_bind rv); [apply H|]. intros w. apply q_ret. reflexivity.
Qed.
Theorem q_doc its : eqv ro (ev_doc inc lim its) (ev_doc inc' lim (fi r its)).
Proof.
  unfold ev_doc. apply (q_bind rfp); [apply (q_items _ _ its) with (fields := []) (par := None); apply Forall_forall; intros; apply q_all|]. intros [ps par].
  apply (q_bind idf); [apply q_fresh|]. intros i. apply q_ret. cbn [fst snd rfp ren_obj]. destruct par; reflexivity.
Qed.
Definition rarr (a : arr) : arr := match rv (VArr a) with VArr b => b | _ => a end.
Definition rtup (a : tup) : tup := match rv (VTup a) with VTup b => b | _ => a end.
Theorem q_contents c : lim = limit64 -> eqv rv (ev_contents inc c) (ev_contents inc' (fc r c)).
Proof.
  intros E. destruct c as [t|its|es|es]; cbn [ev_contents fc]; try rewrite <- E.
  - apply q_ret. reflexivity.
  - apply (q_bind ro); [apply q_doc|]. intros o. apply q_ret. reflexivity.
  - apply (q_bind rarr).
    + unfold ev_arr_doc. apply (q_bind (map rv)); [apply q_emap, Forall_forall; intros e _; apply (proj2 q_all e 1 [])|].
      intros vs. rewrite rv_types. destruct (lub _); [|apply q_fail]. apply (q_bind idf); [apply q_fresh|]. intros i. apply q_ret. reflexivity.
    + intros [i t vs]. apply q_ret. reflexivity.
  - apply (q_bind rtup).
    + unfold ev_tup_doc. apply (q_bind (map rv)); [apply q_emap, Forall_forall; intros e _; apply (proj2 q_all e 1 [])|].
      intros vs. rewrite rv_types. apply (q_bind idf); [apply q_fresh|]. intros i. apply q_ret. reflexivity.
    + intros [i t vs]. apply q_ret. reflexivity.
Qed.
End Ev.

(** ** Projects *)
Lemma q_apart {A} h (m m' : ES A) : eqv h m m' -> eqv h (apart m) (apart m').
Proof. intros H [gl sh]. unfold apart. cbn [fst snd rst]. specialize (H ([], sh)). cbn [rst rgl map fst snd] in H. unfold rst in H. cbn [fst snd rgl map] in H. rewrite H. destruct (m ([], sh)) as [[a [gl1 sh1]]|]; reflexivity. Qed.
Lemma kind_fc c : kind_in (fc r c) = kind_in c.
Proof. destruct c; reflexivity. Qed.
Theorem q_afresh fs fs' ar ar' : (forall p, canon fs' p = canon fs p) -> (forall full, ar' full = option_map (fc r) (ar full)) ->
  forall n file k p, eqv rv (afresh fs ar n file k p) (afresh fs' ar' n file k p).
Proof.
  intros C A. induction n as [|n IH]; intros file k p; cbn [afresh]; [apply q_fail|]. rewrite C.
  destruct (canon fs _) as [full|]; [|apply q_fail]. rewrite A. destruct (ar full) as [c|]; cbn [option_map]; [|apply q_fail]. rewrite kind_fc.
  destruct (kind_eqb k (kind_in c)); [|apply q_fail]. apply q_apart. apply (q_contents _ _ limit64); [|reflexivity]. intros. apply IH.
Qed.
End A.
