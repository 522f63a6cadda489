(** * Agree: the parser agrees with the specification of Syntax.v on every rendered text. *)
From Verif Require Export AgreeLeaf.
From Coq Require String.
Import String.StringSyntax.
Open Scope N_scope.

(** ** Steps of the parser without counterpart *)
Section Steps.
Context `{U : Unicode} `{EX : Exc}.
Context {C D : Type} (P : D -> Prop) (pr : C -> D) (ev : ES D) (rest : str) (s : pstate).

Lemma agr_peek c r (f : option char -> M C) : s_rest s = c :: r ->
  agr P pr (f (Some c)) ev rest s -> agr P pr (bind peek f) ev rest s.
Proof. intros R H. eapply agr_step; eauto. unfold peek. rewrite R. reflexivity. Qed.
Lemma agr_peek_nil (f : option char -> M C) : s_rest s = [] ->
  agr P pr (f None) ev rest s -> agr P pr (bind peek f) ev rest s.
Proof. intros R H. eapply agr_step; eauto. unfold peek. rewrite R. reflexivity. Qed.
Lemma agr_peek_unwrap c r (f : char -> M C) : s_rest s = c :: r ->
  agr P pr (f c) ev rest s -> agr P pr (bind peek_unwrap f) ev rest s.
Proof. intros R H. eapply agr_step; eauto. unfold peek_unwrap, peek, bind. rewrite R. reflexivity. Qed.
Lemma agr_next c r (f : option char -> M C) : s_rest s = c :: r ->
  agr P pr (f (Some c)) ev rest (adv1 s c r) -> agr P pr (bind next f) ev rest s.
Proof.
  intros R H. eapply agr_step; [| | |exact H]; [|reflexivity|reflexivity]. unfold next, adv1. rewrite R.
  destruct (adv c (s_line s) (s_col s)); reflexivity.
Qed.
Lemma agr_next_unwrap c r (f : char -> M C) : s_rest s = c :: r ->
  agr P pr (f c) ev rest (adv1 s c r) -> agr P pr (bind next_unwrap f) ev rest s.
Proof.
  intros R H. eapply agr_step; [| | |exact H]; [|reflexivity|reflexivity]. unfold next_unwrap, bind, next, adv1. rewrite R.
  destruct (adv c (s_line s) (s_col s)); reflexivity.
Qed.
Lemma agr_getpos (f : N * N -> M C) :
  agr P pr (f (s_line s, s_col s)) ev rest s -> agr P pr (bind getpos f) ev rest s.
Proof. intros H. eapply agr_step; [reflexivity|reflexivity|reflexivity|exact H]. Qed.
Lemma agr_getline (f : N -> M C) :
  agr P pr (f (s_line s)) ev rest s -> agr P pr (bind getline f) ev rest s.
Proof. intros H. eapply agr_step; [reflexivity|reflexivity|reflexivity|exact H]. Qed.
Lemma agr_getfile (f : option str -> M C) :
  agr P pr (f (s_file s)) ev rest s -> agr P pr (bind getfile f) ev rest s.
Proof. intros H. eapply agr_step; [reflexivity|reflexivity|reflexivity|exact H]. Qed.
Lemma agr_assert b (f : unit -> M C) : b = true ->
  agr P pr (f tt) ev rest s -> agr P pr (bind (assert_ b) f) ev rest s.
Proof. intros -> H. eapply agr_step; [reflexivity|reflexivity|reflexivity|exact H]. Qed.
Lemma agr_ret_step {A} (a : A) (f : A -> M C) :
  agr P pr (f a) ev rest s -> agr P pr (bind (ret a) f) ev rest s.
Proof. intros H. eapply agr_step; [reflexivity|reflexivity|reflexivity|exact H]. Qed.
Lemma agr_find w c r (f : bool -> M C) : ws w -> s_rest s = w ++ c :: r -> is_whitespace c = false ->
  (forall l k, agr P pr (f true) ev rest (set_stream s (c :: r) l k)) ->
  agr P pr (bind find_char f) ev rest s.
Proof.
  intros W R Hc H. destruct (find_char_found w c r s W R Hc) as (l & k & E).
  eapply agr_step; [exact E|reflexivity|reflexivity|]. apply H.
Qed.
Lemma agr_find_end w c (f : bool -> M C) : ws w -> last_comment c -> s_rest s = w ++ c ->
  (forall l k, agr P pr (f false) ev rest (set_stream s [] l k)) ->
  agr P pr (bind find_char f) ev rest s.
Proof.
  intros W L R H. destruct (find_char_end w c s W L R) as (l & k & E).
  eapply agr_step; [exact E|reflexivity|reflexivity|]. apply H.
Qed.
Lemma agr_bind_assoc {A B} (m : M A) (g : A -> M B) (f : B -> M C) :
  agr P pr (bind m (fun a => bind (g a) f)) ev rest s -> agr P pr (bind (bind m g) f) ev rest s.
Proof. unfold agr, bind. destruct (m s) as [[a|e| |] s']; auto. Qed.
End Steps.

(** ** Heads of texts *)
Section Heads.
Context `{U : Unicode}.

Definition head_ok (c : char) : Prop := is_whitespace c = false /\ is_end_delimiter c = false.
Lemma head_range c : 36 <= c <= 40 \/ 42 <= c <= 60 \/ 63 <= c <= 92 \/ 94 <= c <= 123 \/ c = 34 \/ c = 33 -> head_ok c.
Proof.
  intros H. unfold head_ok, is_whitespace, is_end_delimiter, ch_is_whitespace.
  repeat rewrite orb_false_iff. repeat rewrite andb_false_iff. repeat rewrite N.eqb_neq.
  repeat rewrite N.leb_gt. lia.
Qed.
Lemma head_letter c : letter_or_digit c -> head_ok c.
Proof.
  intros H. pose proof (lod_not_end _ H) as E. unfold is_value_end_char in E.
  apply orb_false_iff in E as [E _]. apply orb_false_iff in E. exact E.
Qed.
Lemma num_head_range c : num_char c = true -> c <> 95 -> 48 <= c <= 57 \/ c = 46 \/ c = 44.
Proof.
  unfold num_char. rewrite !orb_true_iff, !N.eqb_eq. intros [[[H|H]|H]|H] N; auto; [|lia].
  apply digit_range in H. auto.
Qed.
Lemma r_atom_head a t : r_atom a t -> exists c r, t = c :: r /\ head_ok c.
Proof.
  intros H. destruct H as [w (c & r & -> & Hc & Hu & _)|cs _|glob n (c & r & -> & Hc & _)|glob n sub t (c & r & -> & Hc & _)|
    op a t _|es w t _ _|es w t _ _|its w t _ _|e w t w' _ _ _|e e2 w t w' t2 w2 _ _ _ _ _ _].
  - exists c, r. split; auto. apply head_range. pose proof (num_head_range c Hc Hu). lia.
  - eexists _, _. split; [reflexivity|]. apply head_range. lia.
  - destruct glob; eexists _, _; (split; [reflexivity|]); [apply head_range; lia|apply head_letter; left; auto].
  - destruct glob; eexists _, _; (split; [reflexivity|]); [apply head_range; lia|apply head_letter; left; auto].
  - destruct op; eexists _, _; (split; [reflexivity|]); apply head_range; cbn; lia.
  - eexists _, _; (split; [reflexivity|]); apply head_range; lia.
  - eexists _, _; (split; [reflexivity|]); apply head_range; lia.
  - eexists _, _; (split; [reflexivity|]); apply head_range; lia.
  - eexists _, _; (split; [reflexivity|]); apply head_range; lia.
  - eexists _, _; (split; [reflexivity|]); apply head_range; lia.
Qed.
Lemma r_expr_head e t : r_expr e t -> exists c r, t = c :: r /\ head_ok c.
Proof.
  intros H. destruct H as [a l t t' H _]. destruct (r_atom_head _ _ H) as (c & r & -> & Hc).
  eexists _, _; split; [reflexivity|auto].
Qed.
Lemma item_head f : item_name f -> exists c r, f = c :: r /\ head_ok c.
Proof.
  intros (c & r & [->| ->] & Hc & _).
  - exists c, r. split; auto. destruct Hc as [Hc| ->]; [apply head_letter; left; auto|apply head_range; lia].
  - exists 64, (c :: r). split; auto. apply head_range; lia.
Qed.
Lemma ws_head w : ws w -> w <> [] -> exists c r, w = c :: r /\ is_whitespace c = true.
Proof.
  intros H N. destruct H as [|c t Hc _|body t _ _]; [congruence| |].
  - exists c, t. split; auto. unfold is_whitespace. rewrite Hc. auto.
  - eexists _, _. split; [reflexivity|]. reflexivity.
Qed.
Lemma folb_ws b w x : ws w -> w <> [] -> folb b (w ++ x).
Proof.
  intros H N. destruct (ws_head w H N) as (c & r & -> & Hc). right. exists c, (r ++ x). auto.
Qed.
Lemma folb_close c x : is_end_delimiter c = true -> folb (Some c) (c :: x).
Proof. intros H. right. exists c, x. auto. Qed.
Lemma folb_last c : last_comment c -> folb None c.
Proof.
  intros [->|(b & -> & _)]; [left; auto|right]. exists 35, b. split; auto.
Qed.
Lemma r_elems_nil t : r_elems [] t -> t = [].
Proof. inversion 1; auto. Qed.
Lemma r_items_nil t : r_items [] t -> t = [].
Proof. inversion 1; auto. Qed.
(** what follows an element: white space, or the end *)
Lemma folb_elem b es w t x : ws w -> es = [] \/ w <> [] -> r_elems es t -> folb b x -> folb b (w ++ t ++ x).
Proof.
  intros W [->|N] E F; [|apply folb_ws; auto]. apply r_elems_nil in E as ->.
  destruct w; [exact F|]. apply folb_ws; auto. discriminate.
Qed.
Lemma folb_item b es w t x : ws w -> es = [] \/ w <> [] -> r_items es t -> folb b x -> folb b (w ++ t ++ x).
Proof.
  intros W [->|N] E F; [|apply folb_ws; auto]. apply r_items_nil in E as ->.
  destruct w; [exact F|]. apply folb_ws; auto. discriminate.
Qed.
Lemma op_text_op op : get_op (op_text op) = Some op.
Proof. destruct op; reflexivity. Qed.
Lemma op_text_end op : is_value_end_char (op_text op) = true.
Proof. destruct op; reflexivity. Qed.
Lemma fol_chain b l t x : r_chain l t -> folb b x -> fol (t ++ x).
Proof.
  intros H F. destruct H as [|op a l t t' _ _].
  - eapply folb_fol; eauto.
  - right. eexists _, _. split; [reflexivity|]. apply op_text_end.
Qed.
End Heads.
