(** * Unique: the grammar of Syntax.v is unambiguous.  A text is the text of at most one document. *)
From Verif Require Export Agree.
From Coq Require String.
Import String.StringSyntax.
Open Scope N_scope.

Section Uniq.
Context `{U : Unicode}.

(** ** White space *)
Definition solid (x : str) : Prop :=
  (exists c r, x = c :: r /\ is_whitespace c = false) \/ last_comment x.

Lemma span (P : char -> Prop) : forall w w' x x', Forall P w -> Forall P w' -> w ++ x = w' ++ x' ->
  (forall c r, x = c :: r -> ~ P c) -> (forall c r, x' = c :: r -> ~ P c) -> w = w' /\ x = x'.
Proof.
  induction w as [|c w IH]; intros [|c' w'] x x' F F' E H H'; cbn in E; auto.
  - subst x. exfalso. inversion F'; subst. eapply H; eauto.
  - subst x'. exfalso. inversion F; subst. eapply H'; eauto.
  - inversion E; subst. inversion F; inversion F'; subst. destruct (IH w' x x') as [-> ->]; auto.
Qed.

Lemma solid_ws w x : ws w -> w <> [] -> ~ solid (w ++ x).
Proof.
  intros W N H. destruct W as [|c t Hc W|body t F W]; [auto| |].
  - assert (c <> 35) by (intros ->; discriminate).
    destruct H as [(c' & r & E & H)|[E|(b & E & _)]]; cbn in E; inversion E; subst; auto.
    unfold is_whitespace in H. rewrite Hc in H. discriminate.
  - destruct H as [(c' & r & E & H)|[E|(b & E & H)]]; cbn in E; inversion E; subst; [discriminate|].
    rewrite Forall_forall in H. apply (H 10); auto. apply in_app_iff. left. apply in_app_iff. right. left. auto.
Qed.
Lemma ws_uniq : forall w, ws w -> forall w' x x', ws w' -> w ++ x = w' ++ x' -> solid x -> solid x' -> x = x'.
Proof.
  induction 1 as [|c t Hc W IH|body t F W IH]; intros w' x x' W' E S S'.
  - destruct w' as [|c' w']; auto. exfalso. cbn [app] in E. subst x. eapply (solid_ws (c' :: w') x'); [auto|discriminate|exact S].
  - destruct W' as [|c' t' Hc' W'|body' t' F' W'].
    + exfalso. cbn [app] in E. subst x'. eapply (solid_ws (c :: t)); [constructor; auto|discriminate|exact S'].
    + inversion E; subst. eapply IH; eauto.
    + inversion E; subst. discriminate.
  - destruct W' as [|c' t' Hc' W'|body' t' F' W'].
    + exfalso. cbn [app] in E. subst x'. eapply (solid_ws (35 :: body ++ 10 :: t)); [apply ws_comment; auto|discriminate|exact S'].
    + inversion E; subst. discriminate.
    + inversion E as [E']. rewrite <- !app_assoc in E'. apply (span (fun c => c <> 10)) in E' as [_ E']; auto.
      * cbn in E'. inversion E'. eapply IH; eauto.
      * intros c r Ec Nc. inversion Ec; subst. auto.
      * intros c r Ec Nc. inversion Ec; subst. auto.
Qed.

(** ** What follows *)
(** after an expression *)
Definition fin (x : str) : Prop := exists b, folb b x.
(** after the elements or items *)
Definition stop (x : str) : Prop := (exists c r, x = c :: r /\ is_end_delimiter c = true) \/ last_comment x.

Lemma fin_fol x : fin x -> fol x.
Proof. intros [b H]. eapply folb_fol; eauto. Qed.
Lemma stop_folb x : stop x -> exists b, folb b x.
Proof.
  intros [(c & r & -> & H)|H]; [exists (Some c); apply folb_close; auto|exists None; apply folb_last; auto].
Qed.
Lemma delim_ws c : is_end_delimiter c = true -> is_whitespace c = false.
Proof.
  unfold is_end_delimiter. rewrite !orb_true_iff, !N.eqb_eq. intros H.
  unfold is_whitespace, ch_is_whitespace. repeat rewrite orb_false_iff. repeat rewrite andb_false_iff.
  repeat rewrite N.eqb_neq. repeat rewrite N.leb_gt. lia.
Qed.
Lemma stop_solid x : stop x -> solid x.
Proof. intros [(c & r & -> & H)|H]; [left; exists c, r; split; auto; apply delim_ws; auto|right; auto]. Qed.
Lemma head_solid c r : head_ok c -> solid (c :: r).
Proof. intros [H _]. left. eauto. Qed.
Lemma stop_head c r : head_ok c -> ~ stop (c :: r).
Proof.
  intros [H1 H2] [(c' & r' & E & H)|[E|(b & E & _)]]; inversion E; subst; [congruence|discriminate].
Qed.
Lemma expr_solid e t x : r_expr e t -> solid (t ++ x).
Proof. intros H. destruct (r_expr_head _ _ H) as (c & r & -> & Hc). apply head_solid; auto. Qed.
Lemma expr_not_stop e t x : r_expr e t -> ~ stop (t ++ x).
Proof. intros H. destruct (r_expr_head _ _ H) as (c & r & -> & Hc). apply stop_head; auto. Qed.
Lemma item_solid f x : item_name f -> solid (f ++ x).
Proof. intros H. destruct (item_head _ H) as (c & r & -> & Hc). apply head_solid; auto. Qed.
Lemma item_not_stop f x : item_name f -> ~ stop (f ++ x).
Proof. intros H. destruct (item_head _ H) as (c & r & -> & Hc). apply stop_head; auto. Qed.
Lemma fin_stop w x : ws w -> stop x -> fin (w ++ x).
Proof.
  intros W S. destruct w as [|c w]; [apply stop_folb; auto|]. exists None. apply folb_ws; auto. discriminate.
Qed.
Lemma fin_elems w es t x : ws w -> es = [] \/ w <> [] -> r_elems es t -> stop x -> fin (w ++ t ++ x).
Proof. intros W H E S. destruct (stop_folb x S) as [b F]. exists b. apply (folb_elem b es); auto. Qed.
Lemma fin_items w es t x : ws w -> es = [] \/ w <> [] -> r_items es t -> stop x -> fin (w ++ t ++ x).
Proof. intros W H E S. destruct (stop_folb x S) as [b F]. exists b. apply (folb_item b es); auto. Qed.
Lemma stop_delim c r : is_end_delimiter c = true -> stop (c :: r).
Proof. intros H. left. eauto. Qed.

(** ** First characters *)
Definition cls (c : char) : N :=
  if c =? 34 then 1 else if c =? 43 then 2 else if c =? 45 then 3 else if c =? 91 then 4 else if c =? 40 then 5
  else if c =? 123 then 6 else if c =? 60 then 7 else if num_char c && negb (c =? 95) then 8 else 9.
Definition acls (a : atom) : N :=
  match a with
  | AStr _ => 1 | AUn UPlus _ => 2 | AUn UMinus _ => 3 | AArr _ => 4 | ATup _ => 5 | AObj _ => 6
  | AInc _ _ => 7 | ANum _ => 8 | AVar _ _ | ADot _ _ _ => 9
  end.
Lemma cls_letter c : letter c -> cls c = 9.
Proof.
  intros H. pose proof (letter_not_digit _ H) as D.
  assert (R : 65 <= c <= 90 \/ c = 95 \/ 97 <= c <= 122 \/ 127 < c) by (destruct H as [H| ->]; [apply alpha_range in H; lia|lia]).
  unfold cls, num_char. rewrite D.
  repeat match goal with |- context [c =? ?k] => destruct (N.eqb_spec c k); [try lia|] end; try reflexivity.
Qed.
Lemma atom_cls a t : r_atom a t -> exists c r, t = c :: r /\ cls c = acls a.
Proof.
  intros H. destruct H as [w (c & r & -> & Hc & Hu & _)|cs _|glob n (c & r & -> & Hc & _)|glob n sub t (c & r & -> & Hc & _)|
    op a t _|es w t _ _|es w t _ _|its w t _ _|e w t w' _ _ _|e e2 w t w' t2 w2 _ _ _ _ _ _];
    try (eexists _, _; split; [reflexivity|]; reflexivity).
  - exists c, r. split; auto. pose proof (num_head_range c Hc Hu). unfold cls. rewrite Hc.
    repeat match goal with |- context [c =? ?k] => destruct (N.eqb_spec c k); [try lia|] end; try reflexivity.
  - destruct glob; (eexists _, _; split; [reflexivity|]); [reflexivity|apply cls_letter; auto].
  - destruct glob; (eexists _, _; split; [reflexivity|]); [reflexivity|apply cls_letter; auto].
  - destruct op; eexists _, _; (split; [reflexivity|]); reflexivity.
Qed.

Lemma name_lod glob n : var_name glob n -> Forall letter_or_digit n.
Proof.
  intros (c & r & -> & H & F). constructor; auto. destruct glob; auto. apply letter_lod; auto.
Qed.
Lemma fol_lod x : fol x -> forall c r, x = c :: r -> ~ letter_or_digit c.
Proof.
  intros [->|(c & r & -> & H)] c' r' E K; [discriminate|]. inversion E; subst. apply lod_not_end in K. congruence.
Qed.
Lemma dot_lod x : forall c r, 46 :: x = c :: r -> ~ letter_or_digit c.
Proof. intros c r E K. inversion E; subst. apply lod_range in K. lia. Qed.
Lemma fol_num x : fol x -> forall c r, x = c :: r -> num_char c <> true.
Proof.
  intros [->|(c & r & -> & H)] c' r' E K; [discriminate|]. inversion E; subst.
  assert (48 <= c' <= 57 \/ c' = 46 \/ c' = 44 \/ c' = 95).
  { destruct (N.eq_dec c' 95); auto. pose proof (num_head_range c' K). tauto. }
  clear E K. unfold is_value_end_char, is_whitespace, is_end_delimiter, is_op, ch_is_whitespace in H.
  revert H. apply not_true_iff_false.
  repeat rewrite orb_false_iff. repeat rewrite andb_false_iff. repeat rewrite N.eqb_neq. repeat rewrite N.leb_gt. lia.
Qed.
Lemma fol_dot x : fol (46 :: x) -> False.
Proof. intros [H|(c & r & E & H)]; [discriminate|]. inversion E; subst. discriminate. Qed.

(** '@' and the name *)
Lemma name_uniq glob n x glob' n' x' : var_name glob n -> var_name glob' n' ->
  (if glob then [c_at] else []) ++ n ++ x = (if glob' then [c_at] else []) ++ n' ++ x' ->
  (forall c r, x = c :: r -> ~ letter_or_digit c) -> (forall c r, x' = c :: r -> ~ letter_or_digit c) ->
  glob = glob' /\ n = n' /\ x = x'.
Proof.
  intros H H' E X X'. assert (G : glob = glob').
  { destruct glob, glob'; auto; exfalso.
    - destruct H' as (c & r & -> & H' & _). cbn in E. inversion E; subst. destruct H' as [H'|H']; [apply alpha_range in H'; lia|lia].
    - destruct H as (c & r & -> & H & _). cbn in E. inversion E; subst. destruct H as [H|H]; [apply alpha_range in H; lia|lia]. }
  subst glob'. apply app_inv_head in E. apply (span letter_or_digit) in E; eauto using name_lod.
Qed.

Lemma str_uniq : forall cs cs' x x', Forall schar_ok cs -> Forall schar_ok cs' ->
  flat_map schar_text cs ++ c_quote :: x = flat_map schar_text cs' ++ c_quote :: x' -> cs = cs' /\ x = x'.
Proof.
  induction cs as [|s cs IH]; intros [|s' cs'] x x' F F' E.
  - inversion E; auto.
  - exfalso. inversion F' as [|? ? K _]; subst. destruct s'; cbn in E; inversion E; subst. destruct K; auto.
  - exfalso. inversion F as [|? ? K _]; subst. destruct s; cbn in E; inversion E; subst. destruct K; auto.
  - inversion F as [|? ? K Fc]; inversion F' as [|? ? K' Fc']; subst.
    destruct s, s'; cbn in E, K, K'; inversion E; subst; try tauto.
    + edestruct IH as [-> ->]; eauto.
    + edestruct IH as [-> ->]; eauto.
Qed.

(** ** The induction *)
Scheme r_atom_m := Minimality for r_atom Sort Prop
  with r_expr_m := Minimality for r_expr Sort Prop
  with r_chain_m := Minimality for r_chain Sort Prop
  with r_elems_m := Minimality for r_elems Sort Prop
  with r_items_m := Minimality for r_items Sort Prop.
Combined Scheme r_mut from r_atom_m, r_expr_m, r_chain_m, r_elems_m, r_items_m.

Definition Q_atom a t := forall a' t' x x', r_atom a' t' -> t ++ x = t' ++ x' -> fol x -> fol x' -> a = a' /\ x = x'.
Definition Q_expr e t := forall e' t' x x', r_expr e' t' -> t ++ x = t' ++ x' -> fin x -> fin x' -> e = e' /\ x = x'.
Definition Q_chain l t := forall l' t' x x', r_chain l' t' -> t ++ x = t' ++ x' -> fin x -> fin x' -> l = l' /\ x = x'.
Definition Q_elems es t := forall w es' w' t' x x', ws w -> ws w' -> r_elems es' t' ->
  w ++ t ++ x = w' ++ t' ++ x' -> stop x -> stop x' -> es = es' /\ x = x'.
Definition Q_items es t := forall w es' w' t' x x', ws w -> ws w' -> r_items es' t' ->
  w ++ t ++ x = w' ++ t' ++ x' -> stop x -> stop x' -> es = es' /\ x = x'.

Lemma chain_fol l t x : r_chain l t -> fin x -> fol (t ++ x).
Proof.
  intros H F. destruct H as [|op a l t t' _ _]; [apply fin_fol; auto|]. right. eexists _, _. split; [reflexivity|].
  destruct op; reflexivity.
Qed.
Lemma fin_op op x : fin (op_text op :: x) -> False.
Proof.
  intros [b [H|(c & r & E & H)]]; [discriminate|]. inversion E; subst. destruct op, H as [H|[H _]]; discriminate.
Qed.
Lemma item_colon f : item_name f -> Forall (fun c => c <> 58) f.
Proof.
  intros (c & r & E & H & F).
  assert (A : Forall (fun c => c <> 58) (c :: r)).
  { constructor; [destruct H as [H| ->]; [apply letter_lod, lod_range in H|]; lia|].
    eapply Forall_impl; [|exact F]. intros d Hd. apply lod_range in Hd. lia. }
  destruct E as [->| ->]; auto. constructor; [lia|auto].
Qed.

Ltac pre H' E := destruct (atom_cls _ _ H') as (?c & ?r & ?Et & ?C); rewrite Et in E; cbn [app] in E.

Lemma uniq_all :
  (forall a t, r_atom a t -> Q_atom a t) /\ (forall e t, r_expr e t -> Q_expr e t) /\
  (forall l t, r_chain l t -> Q_chain l t) /\ (forall es t, r_elems es t -> Q_elems es t) /\
  (forall es t, r_items es t -> Q_items es t).
Proof.
  assert (CL : forall a t a' t' x x', r_atom a t -> r_atom a' t' -> t ++ x = t' ++ x' -> acls a = acls a').
  { intros a t a' t' x x' H H' E. destruct (atom_cls _ _ H) as (c & r & -> & <-).
    destruct (atom_cls _ _ H') as (c' & r' & -> & <-). inversion E; auto. }
  apply r_mut.
  - (* number *)
    intros w N a' t' x x' H' E F F'. pose proof (CL _ _ _ _ _ _ (r_num _ N) H' E) as C.
    destruct H' as [w' N'| | | |op a t _| | | | |]; try discriminate; [|destruct op; discriminate].
    assert (A : forall w, num_text w -> Forall (fun c => num_char c = true) w) by (intros ? (? & ? & -> & ? & _ & ?); auto).
    apply (span (fun c => num_char c = true)) in E as [-> ->]; eauto using fol_num.
  - (* string *)
    intros cs N a' t' x x' H' E F F'. pose proof (CL _ _ _ _ _ _ (r_str _ N) H' E) as C.
    destruct H' as [|cs' N'| | |op a t _| | | | |]; try discriminate; [|destruct op; discriminate].
    cbn in E. inversion E as [E']. rewrite <- !app_assoc in E'. apply str_uniq in E' as [-> ->]; auto.
  - (* variable *)
    intros g m N a' t' x x' H' E F F'. pose proof (CL _ _ _ _ _ _ (r_var _ _ N) H' E) as C.
    destruct H' as [| |g' m' N'|g' m' sub' t' N' D' H'|op a t _| | | | |]; try discriminate; [| |destruct op; discriminate].
    + rewrite <- !app_assoc in E. apply name_uniq in E as (-> & -> & ->); eauto using fol_lod.
    + exfalso. repeat (rewrite <- ?app_assoc in E; cbn [app] in E). apply name_uniq in E as (_ & _ & ->); eauto using fol_lod, dot_lod.
      eapply fol_dot; eauto.
  - (* dot *)
    intros g m sub t N D H IH a' t' x x' H' E F F'. pose proof (CL _ _ _ _ _ _ (r_dot _ _ _ _ N D H) H' E) as C.
    destruct H' as [| |g' m' N'|g' m' sub' t' N' D' H'|op a t' _| | | | |]; try discriminate; [| |destruct op; discriminate].
    + exfalso. repeat (rewrite <- ?app_assoc in E; cbn [app] in E). apply name_uniq in E as (_ & _ & <-); eauto using fol_lod, dot_lod.
      eapply fol_dot; eauto.
    + repeat (rewrite <- ?app_assoc in E; cbn [app] in E). apply name_uniq in E as (-> & -> & E); eauto using dot_lod.
      inversion E as [E']. apply (IH _ _ _ _ H') in E' as [-> ->]; auto.
  - (* sign *)
    intros op a t H IH a' t' x x' H' E F F'. pose proof (CL _ _ _ _ _ _ (r_un op _ _ H) H' E) as C.
    destruct H' as [| | | |op' a' t' H'| | | | |]; try (destruct op; discriminate).
    assert (op = op') as <- by (destruct op, op'; (reflexivity || discriminate)).
    cbn in E. inversion E as [E']. apply (IH _ _ _ _ H') in E' as [-> ->]; auto.
  - (* Arr *)
    intros es w t W H IH a' t' x x' H' E F F'. pose proof (CL _ _ _ _ _ _ (r_arr _ _ _ W H) H' E) as C.
    destruct H' as [| | | |op' a' t' H'|es' w' t' W' H'| | | |]; try discriminate; [destruct op'; discriminate|].
    cbn in E. inversion E as [E']. rewrite <- !app_assoc in E'. cbn [app] in E'.
    apply (IH _ _ _ _ _ _ W W' H') in E' as [-> E']; [inversion E'; auto| |]; apply stop_delim; reflexivity.
  - (* Tup *)
    intros es w t W H IH a' t' x x' H' E F F'. pose proof (CL _ _ _ _ _ _ (r_tup _ _ _ W H) H' E) as C.
    destruct H' as [| | | |op' a' t' H'| |es' w' t' W' H'| | |]; try discriminate; [destruct op'; discriminate|].
    cbn in E. inversion E as [E']. rewrite <- !app_assoc in E'. cbn [app] in E'.
    apply (IH _ _ _ _ _ _ W W' H') in E' as [-> E']; [inversion E'; auto| |]; apply stop_delim; reflexivity.
  - (* Obj *)
    intros es w t W H IH a' t' x x' H' E F F'. pose proof (CL _ _ _ _ _ _ (r_obj _ _ _ W H) H' E) as C.
    destruct H' as [| | | |op' a' t' H'| | |es' w' t' W' H'| |]; try discriminate; [destruct op'; discriminate|].
    cbn in E. inversion E as [E']. rewrite <- !app_assoc in E'. cbn [app] in E'.
    apply (IH _ _ _ _ _ _ W W' H') in E' as [-> E']; [inversion E'; auto| |]; apply stop_delim; reflexivity.
  - (* include *)
    intros e w t w1 W H IH W1 a' t' x x' H' E F F'. pose proof (CL _ _ _ _ _ _ (r_inc1 _ _ _ _ W H W1) H' E) as C.
    destruct H' as [| | | |op' a' t' H'| | | |e' w' t' w1' W' H' W1'|e' e2' w' t' w1' t2' w2' W' H' W1' N1' H2' W2'];
      try discriminate; [destruct op'; discriminate| |].
    + cbn in E. inversion E as [E']. repeat (rewrite <- ?app_assoc in E'; cbn [app] in E').
      apply (ws_uniq _ W _ _ _ W') in E'; [|eapply expr_solid; eauto|eapply expr_solid; eauto].
      apply (IH _ _ _ _ H') in E' as [-> E']; [| |].
      * apply (ws_uniq _ W1 _ _ _ W1') in E'; [inversion E'; auto| |]; apply stop_solid, stop_delim; reflexivity.
      * apply fin_stop; auto. apply stop_delim; reflexivity.
      * apply fin_stop; auto. apply stop_delim; reflexivity.
    + exfalso. cbn in E. inversion E as [E']. repeat (rewrite <- ?app_assoc in E'; cbn [app] in E').
      apply (ws_uniq _ W _ _ _ W') in E'; [|eapply expr_solid; eauto|eapply expr_solid; eauto].
      apply (IH _ _ _ _ H') in E' as [-> E']; [| |].
      * apply (ws_uniq _ W1 _ _ _ W1') in E'; [|apply stop_solid, stop_delim; reflexivity|eapply expr_solid; eauto].
        apply (expr_not_stop _ t2' (w2' ++ 62 :: x') H2'). rewrite <- E'. apply stop_delim; reflexivity.
      * apply fin_stop; auto. apply stop_delim; reflexivity.
      * exists None. apply folb_ws; auto.
  - (* include with a keyword *)
    intros e e2 w t w1 t2 w2 W H IH W1 N1 H2 IH2 W2 a' t' x x' H' E F F'.
    pose proof (CL _ _ _ _ _ _ (r_inc2 _ _ _ _ _ _ _ W H W1 N1 H2 W2) H' E) as C.
    destruct H' as [| | | |op' a' t' H'| | | |e' w' t' w1' W' H' W1'|e' e2' w' t' w1' t2' w2' W' H' W1' N1' H2' W2'];
      try discriminate; [destruct op'; discriminate| |].
    + exfalso. cbn in E. inversion E as [E']. repeat (rewrite <- ?app_assoc in E'; cbn [app] in E').
      apply (ws_uniq _ W _ _ _ W') in E'; [|eapply expr_solid; eauto|eapply expr_solid; eauto].
      apply (IH _ _ _ _ H') in E' as [-> E']; [| |].
      * apply (ws_uniq _ W1 _ _ _ W1') in E'; [|eapply expr_solid; eauto|apply stop_solid, stop_delim; reflexivity].
        apply (expr_not_stop _ t2 (w2 ++ 62 :: x) H2). rewrite E'. apply stop_delim; reflexivity.
      * exists None. apply folb_ws; auto.
      * apply fin_stop; auto. apply stop_delim; reflexivity.
    + cbn in E. inversion E as [E']. repeat (rewrite <- ?app_assoc in E'; cbn [app] in E').
      apply (ws_uniq _ W _ _ _ W') in E'; [|eapply expr_solid; eauto|eapply expr_solid; eauto].
      apply (IH _ _ _ _ H') in E' as [-> E']; [| |].
      * apply (ws_uniq _ W1 _ _ _ W1') in E'; [|eapply expr_solid; eauto|eapply expr_solid; eauto].
        apply (IH2 _ _ _ _ H2') in E' as [-> E']; [| |].
        -- apply (ws_uniq _ W2 _ _ _ W2') in E'; [inversion E'; auto| |]; apply stop_solid, stop_delim; reflexivity.
        -- apply fin_stop; auto. apply stop_delim; reflexivity.
        -- apply fin_stop; auto. apply stop_delim; reflexivity.
      * exists None. apply folb_ws; auto.
      * exists None. apply folb_ws; auto.
  - (* expression *)
    intros a l t t1 Ha IHa Hl IHl e' t' x x' H' E F F'. destruct H' as [a' l' t' t1' Ha' Hl'].
    rewrite <- !app_assoc in E. apply (IHa _ _ _ _ Ha') in E as [-> E]; [|eapply chain_fol; eauto|eapply chain_fol; eauto].
    apply (IHl _ _ _ _ Hl') in E as [-> ->]; auto.
  - intros l' t' x x' H' E F F'. destruct H' as [|op' a' l' t' t1' Ha' Hl']; [auto|].
    exfalso. cbn in E. subst x. eapply fin_op; eauto.
  - intros op a l t t1 Ha IHa Hl IHl l' t' x x' H' E F F'. destruct H' as [|op' a' l' t' t1' Ha' Hl'].
    { exfalso. cbn in E. subst x'. eapply fin_op; eauto. }
    cbn in E. inversion E as [[E1 E2]]. assert (op = op') as <- by (destruct op, op'; (reflexivity || discriminate)).
    rewrite <- !app_assoc in E2. apply (IHa _ _ _ _ Ha') in E2 as [-> E2]; [|eapply chain_fol; eauto|eapply chain_fol; eauto].
    apply (IHl _ _ _ _ Hl') in E2 as [-> ->]; auto.
  - intros w es' w' t' x x' W W' H' E S S'. destruct H' as [|e' es' t' w2' t2' He' W2' N' Hes'].
    + cbn [app] in E. split; auto. eapply (ws_uniq _ W _ _ _ W'); eauto using stop_solid.
    + exfalso. cbn [app] in E. rewrite <- !app_assoc in E.
      apply (ws_uniq _ W _ _ _ W') in E; [|apply stop_solid; auto|eapply expr_solid; eauto].
      subst x. eapply expr_not_stop; eauto.
  - intros e es t w2 t2 He IHe W2 N Hes IHes w es' w' t' x x' W W' H' E S S'.
    destruct H' as [|e' es' t' w2' t2' He' W2' N' Hes'].
    + exfalso. cbn [app] in E. rewrite <- !app_assoc in E.
      apply (ws_uniq _ W _ _ _ W') in E; [|eapply expr_solid; eauto|apply stop_solid; auto].
      subst x'. eapply expr_not_stop; eauto.
    + rewrite <- !app_assoc in E. apply (ws_uniq _ W _ _ _ W') in E; [|eapply expr_solid; eauto|eapply expr_solid; eauto].
      apply (IHe _ _ _ _ He') in E as [-> E]; [|eapply fin_elems; eauto|eapply fin_elems; eauto].
      apply (IHes _ _ _ _ _ _ W2 W2' Hes') in E as [-> ->]; auto.
  - intros w es' w' t' x x' W W' H' E S S'. destruct H' as [|f' e' es' w1' t' w2' t2' Hf' W1' He' W2' N' Hes'].
    + cbn [app] in E. split; auto. eapply (ws_uniq _ W _ _ _ W'); eauto using stop_solid.
    + exfalso. cbn [app] in E. rewrite <- !app_assoc in E.
      apply (ws_uniq _ W _ _ _ W') in E; [|apply stop_solid; auto|eapply item_solid; eauto].
      subst x. eapply item_not_stop; eauto.
  - intros f e es w1 t w2 t2 Hf W1 He IHe W2 N Hes IHes w es' w' t' x x' W W' H' E S S'.
    destruct H' as [|f' e' es' w1' t' w2' t2' Hf' W1' He' W2' N' Hes'].
    + exfalso. cbn [app] in E. rewrite <- !app_assoc in E.
      apply (ws_uniq _ W _ _ _ W') in E; [|eapply item_solid; eauto|apply stop_solid; auto].
      subst x'. eapply item_not_stop; eauto.
    + repeat (rewrite <- ?app_assoc in E; cbn [app] in E).
      apply (ws_uniq _ W _ _ _ W') in E; [|eapply item_solid; eauto|eapply item_solid; eauto].
      apply (span (fun c => c <> 58)) in E as [-> E]; auto using item_colon; try (intros ? ? Ec Nc; inversion Ec; subst; auto; fail).
      inversion E as [E']. apply (ws_uniq _ W1 _ _ _ W1') in E'; [|eapply expr_solid; eauto|eapply expr_solid; eauto].
      apply (IHe _ _ _ _ He') in E' as [-> E']; [|eapply fin_items; eauto|eapply fin_items; eauto].
      apply (IHes _ _ _ _ _ _ W2 W2' Hes') in E' as [-> ->]; auto.
Qed.

Theorem doc_unique d1 d2 text : r_doc d1 text -> r_doc d2 text -> d1 = d2.
Proof.
  intros (w & t & c & -> & W & H & L) (w' & t' & c' & E & W' & H' & L').
  destruct uniq_all as (_ & _ & _ & _ & A). eapply (A _ _ H w d2 w' t'); eauto; right; auto.
Qed.
Theorem list_unique d1 d2 text : r_list d1 text -> r_list d2 text -> d1 = d2.
Proof.
  intros (w & t & c & -> & W & H & L) (w' & t' & c' & E & W' & H' & L').
  destruct uniq_all as (_ & _ & _ & A & _). eapply (A _ _ H w d2 w' t'); eauto; right; auto.
Qed.
Theorem expr_unique e1 e2 text : r_expr e1 text -> r_expr e2 text -> e1 = e2.
Proof.
  intros H H'. destruct uniq_all as (_ & A & _).
  destruct (A _ _ H e2 text [] [] H' eq_refl) as [-> _]; auto; exists None; left; auto.
Qed.
End Uniq.
