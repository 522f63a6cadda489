(** * FaultSound: the parser reports the faults of Spot.v. *)
From Verif Require Export FaultBase.
From Coq Require String.
Import String.StringSyntax.
Open Scope N_scope.

Ltac asc H := repeat (progress (rewrite <- ?app_assoc in H; cbn [app] in H)).
Ltac ascg := repeat (progress (rewrite <- ?app_assoc; cbn [app])).

Section Sound.
Context `{U : Unicode}.
Variable fs : fsys.
Variable file : option str.
Notation li := (load_file fs (inc_fuel fs)).
Notation inc := (include_meaning fs file).
Notation EA := (ev_atom inc limit64).
Notation EE := (ev_expr inc limit64).
Notation good := (good file).
Notation meets := (meets fs file).
Notation aah := (aah fs file).

(** ** White space *)
Lemma find_ws_at w R : ws w -> forall l k, find_char_l (w ++ R) l k false =
  find_char_l R (fst (advs w (l, k))) (snd (advs w (l, k))) false.
Proof.
  induction 1 as [|c t Hc Ht IH|body t Hb Ht IH]; intros l k.
  - reflexivity.
  - rewrite advs_cons. cbn [app find_char_l fst snd]. destruct (adv c l k) as [l' k'] eqn:A. rewrite Hc.
    destruct (N.eqb_spec c 35) as [->|_]; [discriminate|]. apply IH.
  - rewrite advs_cons. cbn [app find_char_l fst snd]. rewrite (N.eqb_refl 35). destruct (adv 35 l k) as [l1 k1].
    rewrite <- app_assoc. clear l k. revert l1 k1. induction Hb as [|c body Hc Hb IHb]; intros l2 k2.
    + cbn [app]. rewrite advs_cons. cbn [find_char_l fst snd]. destruct (adv 10 l2 k2). apply IH.
    + cbn [app]. rewrite advs_cons. cbn [find_char_l fst snd]. destruct (adv c l2 k2) as [l3 k3].
      replace (c =? 10) with false by (symmetry; apply N.eqb_neq; auto). apply IHb.
Qed.
Lemma good_skip P w R x s : ws w -> good P (w ++ R) x s -> exists s', good (P ++ w) R x s' /\ find_char s = find_char s'.
Proof.
  intros W (R1 & X & F & K & L & C). exists (set_stream s R (line_of (P ++ w)) (col_of (P ++ w))).
  split; [unfold FaultBase.good; cbn; auto 7|]. unfold find_char. rewrite R1, find_ws_at by auto. cbn [s_rest s_line s_col set_stream].
  replace (advs w (s_line s, s_col s)) with (line_of (P ++ w), col_of (P ++ w)); [reflexivity|].
  rewrite L, C. pose proof (pos_at_advs w P _ _ (pos_of P)) as A. destruct (pos_at_fun _ _ _ _ _ A (pos_of (P ++ w))) as [E1 E2].
  rewrite (surjective_pairing (advs w _)), E1, E2. reflexivity.
Qed.
Lemma mb_skip {C} e P w R x s (f : bool -> M C) : ws w -> good P (w ++ R) x s ->
  (forall s', good (P ++ w) R x s' -> mb e (bind find_char f) s') -> mb e (bind find_char f) s.
Proof.
  intros W G H. destruct (good_skip _ _ _ _ _ W G) as (s' & G' & E). specialize (H s' G').
  unfold mb, bind in *. rewrite E. exact H.
Qed.

(** ** Items *)
Definition pair_back f (ps : list pair_t) (par : option obj) (close : option char) l k (v : value) : M (bool * list pair_t * option obj) :=
  let* '(ps', par') :=
    (match kind_of_item f with
     | KGlobal => let* _ := insert_global f v in ret (ps, par)
     | KParent =>
         match get_obj v with
         | OOk o => ret (ps, Some o)
         | OErr e => let* f := getfile in raise (from_over e f l k)
         end
     | _ => ret (ps ++ [(f, v)], par)
     end) in
  let* found := find_char in
  if negb found then
    match close with
    | Some _ => let* l := getline in fail (UnexpectedEnd l)
    | None => ret (false, ps', par')
    end
  else ret (true, ps', par').

(** the name of an item, at the end of the text or in front of a colon *)
Definition sep_ok (sep rest : str) : Prop := sep = [] /\ rest = [] \/ sep = [c_colon].
Lemma good_field P f sep rest x s : item_name f -> sep_ok sep rest -> good P (f ++ sep ++ rest) x s ->
  match kind_of_item f with
  | KIllegal => exists s', parse_field (line_of P) (col_of P) s = (Err (mkperr file (InvalidFieldName f (line_of P) (col_of P))), s')
  | k => exists s', parse_field (line_of P) (col_of P) s =
           (Ok (f, match k with KGlobal => FGlobal | KParent => FParent | _ => FRegular end), s') /\
         good (P ++ f ++ sep) rest x s'
  end.
Proof.
  intros (c & r & Hf & Hc & Hr) Ht G.
  assert (C64 : c <> 64).
  { destruct Hc as [H| ->]; [|discriminate]. apply letter_lod, lod_range in H. lia. }
  assert (Sc : forall acc r l k y q, scan_field r l k acc true = (y, q) -> exists con, scanned r l k con q).
  { intros acc r' l k y q E. apply scan_field_spec in E as (con & E & _). eauto. }
  assert (Done : forall acc l k, exists l' k', scan_field (((c :: r) ++ sep) ++ rest) l k acc true =
     (FS_ok (acc ++ c :: r), (rest, l', k'))).
  { intros acc l k. rewrite <- app_assoc.
    destruct (scan_field_first c r (sep ++ rest) Hc Hr l k acc) as (l1 & k1 & ->).
    destruct Ht as [[-> ->]| ->]; cbn; eauto. }
  unfold parse_field, peek_unwrap, bind, peek. 
  destruct Hf as [->| ->].
  - rewrite app_assoc in G. destruct (good_scan file (fun r l k => scan_field r l k [] true) P _ rest x s _ (Sc []) G (Done [])) as (s' & E & G').
    pose proof G as (R & _). rewrite R. cbn [app]. cbn [unwrap ret]. replace (c =? 64) with false by (symmetry; apply N.eqb_neq; auto).
    unfold ret. rewrite E. cbn [app].
    destruct (N.eq_dec c 94) as [->|C94].
    + destruct r as [|d r].
      * cbn. eexists. split; [reflexivity|]. exact G'.
      * replace (is_reserved (94 :: d :: r)) with false by reflexivity.
        replace (str_eqb (94 :: d :: r) (lit "^")) with false by reflexivity.
        cbn [kind_of_item]. unfold fail. destruct G' as (_ & _ & -> & _). eauto.
    + rewrite kind_letter, mem_reserved by auto. destruct (is_reserved (c :: r)).
      { unfold fail. destruct G' as (_ & _ & -> & _). eauto. }
      replace (str_eqb (c :: r) (lit "^")) with false
        by (symmetry; apply str_eqb_neq; intros E2; apply C94; injection E2; auto).
      exists s'. rewrite (caret_match (c :: r)). unfold starts_caret.
      apply N.eqb_neq in C94. rewrite C94. split; [reflexivity|exact G'].
  - change ((64 :: c :: r) ++ sep ++ rest) with (64 :: (c :: r) ++ sep ++ rest) in G.
    rewrite app_assoc in G. destruct (good_next _ _ _ _ _ _ G) as [E1 G1].
    destruct (good_scan file (fun r l k => scan_field r l k [64] true) _ _ rest x _ _ (Sc [64]) G1 (Done [64])) as (s' & E & G').
    pose proof G as (R & _). rewrite R. cbn [unwrap ret]. change (64 =? 64) with true. cbv iota. unfold next_unwrap, bind, ret.
    rewrite E1. cbn [unwrap ret]. unfold ret. rewrite E. cbn [app].
    assert (Y : forall t, hd_error t <> Some 64 -> str_eqb (64 :: c :: r) t = false).
    { intros t H. apply str_eqb_neq. intros E2. apply H. rewrite <- E2. auto. }
    replace (is_reserved (64 :: c :: r)) with false.
    2:{ symmetry. unfold is_reserved.
        replace (str_eqb (64 :: c :: r) (lit "@")) with false by reflexivity.
        rewrite !Y by (cbn; discriminate). reflexivity. }
    rewrite Y by (cbn; discriminate). exists s'. split; [reflexivity|].
    cbn [app] in G'. rewrite <- app_assoc in G'. exact G'.
Qed.

Lemma head_not_end f : item_name f -> exists c r, f = c :: r /\ is_whitespace c = false /\ is_end_delimiter c = false /\ (c =? 125) = false.
Proof.
  intros H. destruct (item_head f H) as (c & r & E & H1 & H2). exists c, r. repeat split; auto.
  apply N.eqb_neq. intros ->. discriminate.
Qed.
(** up to the check of the name *)
Definition item_rest n ps par d close f : M (bool * list pair_t * option obj) :=
  let* found := find_char in
  if negb found then let* l := getline in fail (UnexpectedEnd l)
  else
    let* '(value_line, value_col) := getpos in
    let* v := parse_value fs li n ps value_line value_col d close true in
    pair_back f ps par close value_line value_col v.
Lemma item_name_eq P f sep rest x s n ps par d close : item_name f -> sep_ok sep rest -> may_define f ps par (fst x) ->
  good P (f ++ sep ++ rest) x s ->
  exists s', good (P ++ f ++ sep) rest x s' /\
    parse_field_value_pair fs li (S n) ps par d close s = item_rest n ps par d close f s'.
Proof.
  intros Hf Hs Hm G. rewrite parse_field_value_pair_S. destruct (head_not_end f Hf) as (c & r & Ef & _ & H2 & H3).
  assert (PK : peek_unwrap s = (Ok c, s)).
  { unfold peek_unwrap, bind, peek. destruct G as (-> & _). rewrite Ef. reflexivity. }
  unfold bind at 1. rewrite PK, H2, H3. cbn [andb]. unfold bind at 1, getpos. destruct G as (G1 & G2 & G3 & G4 & G5 & G6).
  rewrite G5, G6. pose proof (good_field P f sep rest x s Hf Hs (conj G1 (conj G2 (conj G3 (conj G4 (conj G5 G6)))))) as PF.
  unfold may_define in Hm. unfold item_rest, pair_back.
  destruct (kind_of_item f) eqn:Kd; try contradiction; destruct PF as (s' & E & G'); exists s'; (split; [exact G'|]);
    unfold bind at 1; rewrite E; cbv iota.
  - unfold bind at 1. unfold bind at 1, get_globals. destruct G' as (_ & X & _). rewrite <- X in Hm. cbn [fst st] in Hm. rewrite Hm.
    reflexivity.
  - rewrite Hm. reflexivity.
  - rewrite <- (existsb_map f ps). fold (mem_str f (map fst ps)). rewrite Hm. reflexivity.
Qed.
Lemma item_value_eq P f w c r x s n ps par d close : item_name f -> may_define f ps par (fst x) -> ws w -> is_whitespace c = false ->
  good P (f ++ 58 :: w ++ c :: r) x s ->
  let P' := P ++ f ++ 58 :: w in
  exists s', good P' (c :: r) x s' /\
    parse_field_value_pair fs li (S n) ps par d close s =
    (let* v := parse_value fs li n ps (line_of P') (col_of P') d close true in
     pair_back f ps par close (line_of P') (col_of P') v) s'.
Proof.
  intros Hf Hm W Hc G P'. destruct (item_name_eq P f [58] (w ++ c :: r) x s n ps par d close) as (s1 & G1 & E1); auto; [right; auto|].
  destruct (good_find _ _ _ _ _ _ _ W Hc G1) as (s2 & E2 & G2).
  replace ((P ++ f ++ [58]) ++ w) with P' in G2 by (unfold P'; rewrite <- !app_assoc; reflexivity).
  exists s2. split; [exact G2|]. rewrite E1. unfold item_rest. unfold bind at 1. rewrite E2. cbn [negb].
  unfold bind at 1, getpos. destruct G2 as (_ & _ & _ & _ & -> & ->). reflexivity.
Qed.
(** the end of an item *)
Lemma mb_pair_end e n ps par d close s :
  mb e (items_code fs n ps par d close) s ->
  mb e (let* '(more, ps', par') :=
     (let* found := find_char in
      if negb found then match close with Some _ => let* l := getline in fail (UnexpectedEnd l) | None => ret (false, ps, par) end
      else ret (true, ps, par)) in
    if (more : bool) then pairs_loop fs li n ps' par' d close else ret (ps', par')) s.
Proof.
  unfold items_code, mb, bind. destruct (find_char s) as [[[]|e'| |] s']; auto. cbn [negb].
  destruct close; cbn; auto.
Qed.

Lemma mb_eq {A B} e (m m' : M A) (f : A -> M B) s s' : m s = m' s' -> mb e (bind m' f) s' -> mb e (bind m f) s.
Proof. unfold mb, bind. intros ->. auto. Qed.
Lemma mb_at {A} e (m m' : M A) s s' : m s = m' s' -> mb e m' s' -> mb e m s.
Proof. unfold mb. intros ->. auto. Qed.

(** the value of an item *)
Definition item_done f (v : value) (ps : list pair_t) (par : option obj) (x1 : est) ps' par' (x' : est) : Prop :=
  match kind_of_item f with
  | KGlobal => ps' = ps /\ par' = par /\ x' = ((f, v) :: fst x1, snd x1)
  | KParent => ps' = ps /\ x' = x1 /\ exists o, v = VObj o /\ par' = Some o
  | KField => ps' = ps ++ [(f, v)] /\ par' = par /\ x' = x1
  | KIllegal => False
  end.
Lemma ev_item_inv d f e ps par x ps' par' x' : ev_items (EE d) [(f, e)] ps par x = Some ((ps', par'), x') ->
  may_define f ps par (fst x) /\ exists v x1, EE d ps e x = Some (v, x1) /\ item_done f v ps par x1 ps' par' x'.
Proof.
  unfold may_define, item_done. cbn [ev_items]. destruct (kind_of_item f).
  - unfold ebind at 1, eglobals. destruct (assoc f (fst x)); [discriminate|]. intros H. split; auto.
    unfold ebind in H. destruct (EE d ps e x) as [[v x1]|]; [|discriminate]. exists v, x1. split; auto.
    cbn in H. injection H as <- <- <-. auto.
  - destruct par; [discriminate|]. intros H. split; auto. unfold ebind in H. destruct (EE d ps e x) as [[v x1]|]; [|discriminate].
    exists v, x1. split; auto. destruct v; try discriminate. injection H as <- <- <-. eauto.
  - destruct (mem_str f (map fst ps)); [discriminate|]. intros H. split; auto. unfold ebind in H. destruct (EE d ps e x) as [[v x1]|]; [|discriminate].
    exists v, x1. split; auto. injection H as <- <- <-. auto.
  - discriminate.
Qed.
Definition pair_find (close : option char) (ps : list pair_t) (par : option obj) : M (bool * list pair_t * option obj) :=
  let* found := find_char in
  if negb found then match close with Some _ => let* l := getline in fail (UnexpectedEnd l) | None => ret (false, ps, par) end
  else ret (true, ps, par).
Lemma pair_back_eq P R x1 s f v ps par close l k ps' par' x' : good P R x1 s -> okv v -> okf (ps, par) -> item_name f ->
  item_done f v ps par x1 ps' par' x' ->
  exists s', good P R x' s' /\ okf (ps', par') /\ pair_back f ps par close l k v s = pair_find close ps' par' s'.
Proof.
  intros G V Kf Hf D. unfold item_done in D. unfold pair_back. destruct (kind_of_item f) eqn:Kd.
  - destruct D as (-> & -> & ->). exists (set_globals s ((f, v) :: s_globals s)). split; [|split; [exact Kf|reflexivity]].
    destruct G as (G1 & G2 & G3 & [K1 K2] & G5). unfold FaultBase.good. split; [exact G1|]. split; [rewrite <- G2; reflexivity|].
    split; [exact G3|]. split; [|exact G5]. split; [constructor; auto|exact K2].
  - destruct D as (-> & -> & o & -> & ->). exists s. split; auto. split; [|reflexivity].
    destruct Kf as (K1 & K2 & _). split; [auto|split; auto]. cbn. intros o' E. injection E as <-. auto.
  - destruct D as (-> & -> & ->). exists s. split; auto. split; [|reflexivity].
    destruct Kf as (K1 & K2 & K3). split; [|split; auto]; cbn [fst] in *.
    + apply Forall_app; split; auto.
    + rewrite map_app. apply Forall_app; split; auto. repeat constructor. apply item_fname; auto.
  - contradiction.
Qed.
Lemma kv n T a b c d e f : keeps T (parse_value fs li n a b c d e f).
Proof. apply KT_all. Qed.
Lemma mb_expr {C} e0 (f : value -> M C) P e t R x v x' s n ps d close l k : good P (t ++ R) x s -> r_expr e t -> folb close R -> okps ps ->
  EE d ps e x = Some (v, x') ->
  (forall s', okv v -> good (P ++ t) R x' s' -> mb e0 (f v) s') ->
  mb e0 (bind (parse_value fs li n ps l k d close true) f) s.
Proof.
  intros G He F Kp E H. eapply (mb_agr file e0 okv idp); [|exact G|apply kv|exact E|].
  - destruct G as (G1 & G2 & G3 & G4 & _). exact (AE _ _ _ _ n (aah n) e t d ps l k close R s He F Kp G1 G3 G4).
  - intros a s' -> G' V. auto.
Qed.
Lemma mb_atom {C} e0 (f : value -> M C) P a t R x v x' s n ps d close l k : good P (t ++ R) x s -> r_atom a t -> ended R \/ closed_atom a = true -> okps ps ->
  EA d ps a x = Some (v, x') ->
  (forall s', okv v -> good (P ++ t) R x' s' -> mb e0 (f v) s') ->
  mb e0 (bind (parse_value fs li n ps l k d close false) f) s.
Proof.
  intros G He F Kp E H. eapply (mb_agr file e0 okv idp); [|exact G|apply kv|exact E|].
  - destruct G as (G1 & G2 & G3 & G4 & _). exact (val_closed fs file n a t d ps l k close R s He F Kp G1 G3 G4).
  - intros b s' -> G' V. auto.
Qed.

(** ** From a place back to the one before *)
Notation fits := fits.
Definition back pl x P pl' x' P' t : Prop :=
  forall e R, fits pl' R -> meets pl' e x' P' R -> fits pl (t ++ R) /\ meets pl e x P (t ++ R).

Lemma back_ws pl x P w : spacious pl -> ws w -> back pl x P pl x (P ++ w) w.
Proof.
  intros Sp W e R F H. destruct pl; try contradiction; (split; [exact I|]); intros Kp n s G; specialize (H Kp).
  - eapply mb_skip; [exact W|exact G|]. intros s' G'. apply (H n s' G').
  - intros t Ht. destruct n as [|n]; [exact I|]. rewrite arr_loop_S. eapply mb_skip; [exact W|exact G|]. intros s' G'.
    specialize (H (S n) s' G' t Ht). rewrite arr_loop_S in H. exact H.
  - destruct n as [|n]; [exact I|]. rewrite tup_loop_S. eapply mb_skip; [exact W|exact G|]. intros s' G'.
    pose proof (H (S n) s' G') as H1. cbv beta iota in H1. rewrite tup_loop_S in H1. exact H1.
  - intros t Ht. destruct n as [|n]; [exact I|]. cbn [arr_file_loop]. eapply mb_skip; [exact W|exact G|]. intros s' G'.
    exact (H (S n) s' G' t Ht).
  - destruct n as [|n]; [exact I|]. cbn [tup_file_loop]. eapply mb_skip; [exact W|exact G|]. intros s' G'.
    exact (H (S n) s' G').
  - eapply mb_skip; [exact W|exact G|]. intros s' G'. apply (H n s' G').
Qed.
Lemma ws_folb b w R : ws w -> w <> [] -> folb b (w ++ R).
Proof. apply folb_ws. Qed.
Lemma back_item fields parent d close x P f w e t w' fields' parent' x' :
  item_name f -> ws w -> r_expr e t -> ws w' -> w' <> [] ->
  ev_items (EE d) [(f, e)] fields parent x = Some ((fields', parent'), x') ->
  back (InItems fields parent d close) x P (InItems fields' parent' d close) x' (P ++ f ++ c_colon :: w ++ t ++ w') (f ++ c_colon :: w ++ t ++ w').
Proof.
  intros Hf W He W' Nw Ev e0 R _ H. split; [exact I|]. intros Kf n s G.
  destruct (ev_item_inv _ _ _ _ _ _ _ _ _ Ev) as (Md & v & x1 & E & D).
  destruct (r_expr_head _ _ He) as (c3 & r3 & Et & Hc3 & _).
  destruct (head_not_end f Hf) as (c & r & Ef & Hc1 & _ & _).
  assert (G0 : good P ([] ++ c :: r ++ 58 :: w ++ t ++ w' ++ R) x s).
  { rewrite Ef in G. cbn [app] in *. rewrite <- !app_assoc in G. cbn [app] in G. rewrite <- !app_assoc in G. exact G. }
  unfold items_code. eapply mb_find; [apply ws_nil|exact Hc1|exact G0|]. rewrite app_nil_r. intros s1 G1. cbn [negb].
  destruct n as [|n]; [exact I|]. rewrite pairs_loop_S. destruct n as [|n]; [exact I|].
  assert (G1' : good P (f ++ 58 :: w ++ c3 :: r3 ++ w' ++ R) x s1) by (rewrite Ef; rewrite Et in G1; exact G1).
  destruct (item_value_eq P f w c3 (r3 ++ w' ++ R) x s1 n fields parent d close Hf Md W Hc3 G1') as (s2 & G2 & E2).
  eapply mb_eq; [exact E2|]. apply mb_assoc. set (P' := P ++ f ++ 58 :: w) in *.
  change (c3 :: r3 ++ w' ++ R) with ((c3 :: r3) ++ w' ++ R) in G2. rewrite <- Et in G2.
  eapply mb_expr; [exact G2|exact He|apply ws_folb; auto|apply Kf|exact E|]. intros s3 V G3.
  destruct (pair_back_eq _ _ _ _ f v fields parent close (line_of P') (col_of P') _ _ _ G3 V Kf Hf D) as (s4 & G4 & Kf' & E4).
  eapply mb_eq; [exact E4|]. unfold pair_find. apply mb_pair_end.
  unfold items_code. eapply mb_skip; [exact W'|exact G4|]. intros s5 G5. apply (H Kf' (S n) s5).
  unfold P' in G5. asc G5. exact G5.
Qed.
Lemma headed_cons Q c r : headed Q (c :: r) <-> Q c.
Proof. split; [intros (c' & r' & E & H); injection E as -> ->; auto|]. intros H. exists c, r. auto. Qed.
Lemma back_item_value fields parent d close x P f w : item_name f -> may_define f fields parent (fst x) -> ws w ->
  back (InItems fields parent d close) x P (AtValue Whole fields d close) x (P ++ f ++ c_colon :: w) (f ++ c_colon :: w).
Proof.
  intros Hf Md W e0 R (c3 & r3 & -> & Hc3) H. split; [exact I|]. intros Kf n s G.
  destruct (head_not_end f Hf) as (c & r & Ef & Hc1 & _ & _).
  assert (G0 : good P ([] ++ c :: r ++ 58 :: w ++ c3 :: r3) x s).
  { rewrite Ef in G. cbn [app] in *. rewrite <- !app_assoc in G. exact G. }
  unfold items_code. eapply mb_find; [apply ws_nil|exact Hc1|exact G0|]. rewrite app_nil_r. intros s1 G1. cbn [negb].
  destruct n as [|n]; [exact I|]. rewrite pairs_loop_S. destruct n as [|n]; [exact I|].
  assert (G1' : good P (f ++ 58 :: w ++ c3 :: r3) x s1) by (rewrite Ef; exact G1).
  destruct (item_value_eq P f w c3 r3 x s1 n fields parent d close Hf Md W Hc3 G1') as (s2 & G2 & E2).
  eapply mb_eq; [exact E2|]. apply mb_assoc, mb_bind. apply (H (proj1 Kf) n s2 G2).
Qed.

(** *** Values *)
Notation dsp n := (AgreeMain.disp fs li n).
Lemma fits_value r fields d close c R : r <> Index -> is_whitespace c = false -> is_end_delimiter c = false ->
  fits (AtValue r fields d close) (c :: R).
Proof.
  intros N H1 H2. destruct r; cbn [Spot.fits]; rewrite ?headed_cons; unfold solid_head; auto; congruence.
Qed.
Lemma mb_value e (b : bool) ps d close P c R x s n l k : good P (c :: R) x s ->
  (forall m, mb e (dsp m ps l k d close c) s) ->
  mb e (parse_value fs li n ps l k d close b) s.
Proof.
  intros G H. destruct n as [|n]; [exact I|]. rewrite parse_value_S. eapply mb_peek_unwrap; [exact G|]. apply mb_bind, H.
Qed.
Lemma shallow d : d < 64 -> (MAX_DEPTH <? d + 1) = false.
Proof. intros H. apply N.ltb_ge. unfold MAX_DEPTH. lia. Qed.
Lemma mb_items_in {B} e n ps par d c (g : _ -> M B) s : mb e (items_code fs n ps par d (Some c)) s ->
  mb e (let* found := find_char in
        if negb found then let* l := getline in fail (UnexpectedEnd l)
        else let* x := pairs_loop fs li n ps par d (Some c) in g x) s.
Proof.
  unfold items_code, mb, bind. destruct (find_char s) as [[[]|e'| |] s']; auto. cbn [negb].
  destruct (pairs_loop _ _ _ _ _ _ _ _) as [[]]; auto. contradiction.
Qed.
Lemma okf_nil : okf ([], None).
Proof. split; [constructor|]. split; [constructor|discriminate]. Qed.
Lemma back_obj r fields d close x P : r <> Index -> d < 64 ->
  back (AtValue r fields d close) x P (InItems [] None (d + 1) (Some c_rbrace)) x (P ++ [c_lbrace]) [c_lbrace].
Proof.
  intros Nr D e R _ H. split; [apply fits_value; auto|]. intros Kp n s G. cbn [app] in *.
  eapply mb_value; [exact G|]. intros m. change (dsp m fields (line_of P) (col_of P) d close 123) with (parse_obj fs li m (d + 1)).
  destruct m as [|m]; [exact I|]. rewrite parse_obj_S, shallow by auto. eapply mb_next_unwrap; [exact G|]. intros s1 G1.
  apply mb_assert; [reflexivity|]. apply mb_items_in. apply (H okf_nil m s1 G1).
Qed.
Lemma back_arr r fields d close x P : r <> Index -> d < 64 ->
  back (AtValue r fields d close) x P (InArr fields (d + 1) []) x (P ++ [c_lbrack]) [c_lbrack].
Proof.
  intros Nr D e R _ H. split; [apply fits_value; auto|]. intros Kp n s G. cbn [app] in *.
  eapply mb_value; [exact G|]. intros m. change (dsp m fields (line_of P) (col_of P) d close 91) with (parse_arr fs li m fields (d + 1)).
  destruct m as [|m]; [exact I|]. rewrite parse_arr_S, shallow by auto. eapply mb_next_unwrap; [exact G|]. intros s1 G1.
  apply mb_assert; [reflexivity|]. apply mb_bind. refine (H _ m s1 G1 TAny eq_refl).
  split; [exact Kp|]. split; [constructor|discriminate].
Qed.
Lemma back_tup r fields d close x P : r <> Index -> d < 64 ->
  back (AtValue r fields d close) x P (InTup fields (d + 1) []) x (P ++ [c_lparen]) [c_lparen].
Proof.
  intros Nr D e R _ H. split; [apply fits_value; auto|]. intros Kp n s G. cbn [app] in *.
  eapply mb_value; [exact G|]. intros m. change (dsp m fields (line_of P) (col_of P) d close 40) with (parse_tup fs li m fields (d + 1)).
  destruct m as [|m]; [exact I|]. rewrite parse_tup_S, shallow by auto. eapply mb_next_unwrap; [exact G|]. intros s1 G1.
  apply mb_assert; [reflexivity|]. apply mb_bind. refine (H _ m s1 G1).
  split; [exact Kp|constructor].
Qed.
Lemma lub_snoc els v t : lub (map get_type els) = Some t -> lub (map get_type (els ++ [v])) = lub_from t [get_type v].
Proof. intros H. unfold lub in *. rewrite map_app, fold_left_app, H. reflexivity. Qed.
Lemma mb_find0 {C} e P c r x s (f : bool -> M C) : is_whitespace c = false -> good P (c :: r) x s ->
  (forall s', good P (c :: r) x s' -> mb e (f true) s') -> mb e (bind find_char f) s.
Proof.
  intros Hc G H. eapply mb_find; [apply ws_nil|exact Hc|exact G|]. rewrite app_nil_r. exact H.
Qed.
Lemma back_arr_next fields d els x P e t v x' w : r_expr e t -> EE d fields e x = Some (v, x') ->
  lub (map get_type (els ++ [v])) <> None -> ws w -> w <> [] ->
  back (InArr fields d els) x P (InArr fields d (els ++ [v])) x' (P ++ t ++ w) (t ++ w).
Proof.
  intros He E L W Nw e0 R F H. split; [exact I|]. intros (Kp & Ke & Kl) n s G t0 Ht0.
  rewrite app_assoc in H. destruct (back_ws (InArr fields d (els ++ [v])) x' (P ++ t) w I W e0 R F H) as [_ H1].
  destruct n as [|n]; [exact I|]. rewrite arr_loop_S. destruct (r_expr_head _ _ He) as (c3 & r3 & Et & Hc3 & Hc4).
  rewrite <- app_assoc in G. assert (G' := G). rewrite Et in G'. cbn [app] in G'.
  eapply mb_find0; [exact Hc3|exact G'|]. intros s1 G1. cbn [negb]. eapply mb_peek_unwrap; [exact G1|].
  replace (c3 =? 93) with false by (symmetry; apply N.eqb_neq; intros ->; discriminate).
  rewrite Hc4. eapply mb_getpos; [exact G1|].
  change (c3 :: r3 ++ w ++ R) with ((c3 :: r3) ++ w ++ R) in G1. rewrite <- Et in G1.
  eapply mb_expr; [exact G1|exact He|apply ws_folb; auto|exact Kp|exact E|]. intros s2 V G2.
  pose proof (check_step_lub t0 (has_any t0) (get_type v) eq_refl) as CS. rewrite (lub_snoc els v t0 Ht0) in L.
  destruct (arr_check_step t0 (has_any t0) (get_type v)) as [[t2 any2]|[t1 t2]]; [|congruence].
  destruct CS as [C1 ->]. refine (H1 _ n s2 G2 t2 _).
  - split; [exact Kp|]. split; [apply Forall_app; split; auto|]. rewrite (lub_snoc els v t0 Ht0). congruence.
  - rewrite (lub_snoc els v t0 Ht0). exact C1.
Qed.
Lemma back_arr_value fields d els x P :
  back (InArr fields d els) x P (AtValue Element fields d (Some c_rbrack)) x P [].
Proof.
  intros e0 R (c & r & -> & Hc1 & Hc2) H. split; [exact I|]. intros (Kp & _) n s G t0 Ht0. cbn [app] in G.
  destruct n as [|n]; [exact I|]. rewrite arr_loop_S. eapply mb_find0; [exact Hc1|exact G|]. intros s1 G1. cbn [negb].
  eapply mb_peek_unwrap; [exact G1|].
  replace (c =? 93) with false by (symmetry; apply N.eqb_neq; intros ->; discriminate).
  rewrite Hc2. eapply mb_getpos; [exact G1|]. apply mb_bind. exact (H Kp n s1 G1).
Qed.
Lemma back_tup_next fields d els x P e t v x' w : r_expr e t -> EE d fields e x = Some (v, x') -> ws w -> w <> [] ->
  back (InTup fields d els) x P (InTup fields d (els ++ [v])) x' (P ++ t ++ w) (t ++ w).
Proof.
  intros He E W Nw e0 R F H. split; [exact I|]. intros (Kp & Ke) n s G.
  rewrite app_assoc in H. destruct (back_ws (InTup fields d (els ++ [v])) x' (P ++ t) w I W e0 R F H) as [_ H1].
  destruct n as [|n]; [exact I|]. rewrite tup_loop_S. destruct (r_expr_head _ _ He) as (c3 & r3 & Et & Hc3 & Hc4).
  rewrite <- app_assoc in G. assert (G' := G). rewrite Et in G'. cbn [app] in G'.
  eapply mb_find0; [exact Hc3|exact G'|]. intros s1 G1. cbn [negb]. eapply mb_peek_unwrap; [exact G1|].
  replace (c3 =? 41) with false by (symmetry; apply N.eqb_neq; intros ->; discriminate).
  rewrite Hc4. eapply mb_getpos; [exact G1|].
  change (c3 :: r3 ++ w ++ R) with ((c3 :: r3) ++ w ++ R) in G1. rewrite <- Et in G1.
  eapply mb_expr; [exact G1|exact He|apply ws_folb; auto|exact Kp|exact E|]. intros s2 V G2.
  refine (H1 _ n s2 G2). split; [exact Kp|apply Forall_app; split; auto].
Qed.
Lemma back_tup_value fields d els x P :
  back (InTup fields d els) x P (AtValue Element fields d (Some c_rparen)) x P [].
Proof.
  intros e0 R (c & r & -> & Hc1 & Hc2) H. split; [exact I|]. intros (Kp & _) n s G. cbn [app] in G.
  destruct n as [|n]; [exact I|]. rewrite tup_loop_S. eapply mb_find0; [exact Hc1|exact G|]. intros s1 G1. cbn [negb].
  eapply mb_peek_unwrap; [exact G1|].
  replace (c =? 41) with false by (symmetry; apply N.eqb_neq; intros ->; discriminate).
  rewrite Hc2. eapply mb_getpos; [exact G1|]. apply mb_bind. exact (H Kp n s1 G1).
Qed.
(** *** Files of elements *)
Lemma back_arr_file_next els x P e t v x' w : r_expr e t -> EE 1 [] e x = Some (v, x') ->
  lub (map get_type (els ++ [v])) <> None -> ws w -> w <> [] ->
  back (ArrFile els) x P (ArrFile (els ++ [v])) x' (P ++ t ++ w) (t ++ w).
Proof.
  intros He E L W Nw e0 R F H. split; [exact I|]. intros (Ke & Kl) n s G t0 Ht0.
  rewrite app_assoc in H. destruct (back_ws (ArrFile (els ++ [v])) x' (P ++ t) w I W e0 R F H) as [_ H1].
  destruct n as [|n]; [exact I|]. cbn [arr_file_loop]. destruct (r_expr_head _ _ He) as (c3 & r3 & Et & Hc3 & Hc4).
  rewrite <- app_assoc in G. assert (G' := G). rewrite Et in G'. cbn [app] in G'.
  eapply mb_find0; [exact Hc3|exact G'|]. intros s1 G1. cbn [negb]. eapply mb_getpos; [exact G1|].
  change (c3 :: r3 ++ w ++ R) with ((c3 :: r3) ++ w ++ R) in G1. rewrite <- Et in G1.
  eapply mb_expr; [exact G1|exact He|apply ws_folb; auto|constructor|exact E|]. intros s2 V G2.
  pose proof (check_step_lub t0 (has_any t0) (get_type v) eq_refl) as CS. rewrite (lub_snoc els v t0 Ht0) in L.
  destruct (arr_check_step t0 (has_any t0) (get_type v)) as [[t2 any2]|[t1 t2]]; [|congruence].
  destruct CS as [C1 ->]. refine (H1 _ n s2 G2 t2 _).
  - split; [apply Forall_app; split; auto|]. rewrite (lub_snoc els v t0 Ht0). congruence.
  - rewrite (lub_snoc els v t0 Ht0). exact C1.
Qed.
Lemma back_arr_file_value els x P : back (ArrFile els) x P (AtValue Whole [] 1 None) x P [].
Proof.
  intros e0 R (c & r & -> & Hc1) H. split; [exact I|]. intros _ n s G t0 Ht0. cbn [app] in G.
  destruct n as [|n]; [exact I|]. cbn [arr_file_loop]. eapply mb_find0; [exact Hc1|exact G|]. intros s1 G1. cbn [negb].
  eapply mb_getpos; [exact G1|]. apply mb_bind. exact (H (Forall_nil _) n s1 G1).
Qed.
Lemma back_tup_file_next els x P e t v x' w : r_expr e t -> EE 1 [] e x = Some (v, x') -> ws w -> w <> [] ->
  back (TupFile els) x P (TupFile (els ++ [v])) x' (P ++ t ++ w) (t ++ w).
Proof.
  intros He E W Nw e0 R F H. split; [exact I|]. intros Ke n s G.
  rewrite app_assoc in H. destruct (back_ws (TupFile (els ++ [v])) x' (P ++ t) w I W e0 R F H) as [_ H1].
  destruct n as [|n]; [exact I|]. cbn [tup_file_loop]. destruct (r_expr_head _ _ He) as (c3 & r3 & Et & Hc3 & Hc4).
  rewrite <- app_assoc in G. assert (G' := G). rewrite Et in G'. cbn [app] in G'.
  eapply mb_find0; [exact Hc3|exact G'|]. intros s1 G1. cbn [negb]. eapply mb_getpos; [exact G1|].
  change (c3 :: r3 ++ w ++ R) with ((c3 :: r3) ++ w ++ R) in G1. rewrite <- Et in G1.
  eapply mb_expr; [exact G1|exact He|apply ws_folb; auto|constructor|exact E|]. intros s2 V G2.
  refine (H1 _ n s2 G2). apply Forall_app; split; auto.
Qed.
Lemma back_tup_file_value els x P : back (TupFile els) x P (AtValue Whole [] 1 None) x P [].
Proof.
  intros e0 R (c & r & -> & Hc1) H. split; [exact I|]. intros _ n s G. cbn [app] in G.
  destruct n as [|n]; [exact I|]. cbn [tup_file_loop]. eapply mb_find0; [exact Hc1|exact G|]. intros s1 G1. cbn [negb].
  eapply mb_getpos; [exact G1|]. apply mb_bind. exact (H (Forall_nil _) n s1 G1).
Qed.

(** *** Includes *)
Lemma mb_lt e P R x s n ps l k d close (b : bool) : d < 64 -> good P (60 :: R) x s ->
  (forall m s', good (P ++ [60]) R x s' -> mb e (
    let* found := find_char in
    if negb found then let* l := getline in fail (UnexpectedEnd l)
    else
      let* '(line, col) := getpos in
      let* v := parse_value fs li m ps line col (d + 1) (Some c_gt) true in
      let* tok := include_token v line col in
      let* '(include_type, v, line, col) :=
        (match tok with
         | inr _ => ret (IObj, v, line, col)
         | inl ity =>
             let* found := find_char in
             if negb found then let* l := getline in fail (UnexpectedEnd l)
             else
               let* '(line, col) := getpos in
               let* v := parse_value fs li m ps line col (d + 1) (Some c_gt) true in
               ret (ity, v, line, col)
         end) in
      inc_tail fs include_type v line col) s') ->
  mb e (parse_value fs li n ps l k d close b) s.
Proof.
  intros D G H. eapply mb_value; [exact G|]. intros m.
  change (dsp m ps l k d close 60) with (parse_include fs li m ps (d + 1)).
  destruct m as [|m]; [exact I|]. rewrite parse_include_S, shallow by auto. eapply mb_next_unwrap; [exact G|]. intros s1 G1.
  apply mb_assert; [reflexivity|]. exact (H m s1 G1).
Qed.
Lemma back_inc r fields d close x P w : r <> Index -> d < 64 -> ws w ->
  back (AtValue r fields d close) x P (AtValue Whole fields (d + 1) (Some c_gt)) x (P ++ c_lt :: w) (c_lt :: w).
Proof.
  intros Nr D W e R (c & r0 & -> & Hc) H. split; [apply fits_value; auto|]. intros Kp n s G.
  eapply mb_lt; [exact D|exact G|]. intros m s1 G1. eapply mb_find; [exact W|exact Hc|exact G1|]. intros s2 G2. cbn [negb].
  asc G2. eapply mb_getpos; [exact G2|]. apply mb_bind. exact (H Kp m s2 G2).
Qed.
Lemma mb_inc_code e n ps d k s : mb e (inc_code fs n ps d k) s ->
  mb e (let* '(include_type, v, line, col) :=
    (let* found := find_char in
     if negb found then let* l := getline in fail (UnexpectedEnd l)
     else
       let* '(line, col) := getpos in
       let* v := parse_value fs li n ps line col d (Some c_gt) true in
       ret (k, v, line, col)) in
    inc_tail fs include_type v line col) s.
Proof.
  unfold inc_code. intros H. apply mb_assoc. unfold mb, bind in *. destruct (find_char s) as [[[]|e'| |] s']; auto. cbn [negb] in *.
  cbn [getpos] in *. destruct (parse_value _ _ _ _ _ _ _ _ _ _) as [[]]; auto.
Qed.
Lemma mb_token {C} e (f : inc_ty + unit -> M C) P R x v o x' s l k : good P R x s -> tok_ev v x = Some (o, x') ->
  (forall a s', tok_pr a = o -> good P R x' s' -> mb e (f a) s') -> mb e (bind (include_token v l k) f) s.
Proof.
  intros G E H. assert (G0 : good P ([] ++ R) x s) by exact G.
  eapply (mb_agr file e _ tok_pr); [|exact G0|apply keeps_token|exact E|].
  - destruct G as (<- & _ & _ & K & _). apply (token_agr s v l k K).
  - intros a s' E' G' _. rewrite app_nil_r in G'. apply H; auto.
Qed.
Lemma back_inc_key r fields d close x P w e t o x' k x'' w' :
  r <> Index -> d < 64 -> ws w -> r_expr e t -> EE (d + 1) fields e x = Some (VObj o, x') ->
  ev_keyword o [IObj; IStr; IArr; ITup] x' = Some (Some k, x'') -> ws w' -> w' <> [] ->
  back (AtValue r fields d close) x P (InInc fields (d + 1) k) x'' (P ++ c_lt :: w ++ t ++ w') (c_lt :: w ++ t ++ w').
Proof.
  intros Nr D W He E Kw W' Nw e0 R F H. split; [apply fits_value; auto|]. intros Kp n s G. asc G.
  eapply mb_lt; [exact D|exact G|]. intros m s1 G1. destruct (r_expr_head _ _ He) as (c3 & r3 & Et & Hc3 & Hc4).
  assert (G1' := G1). rewrite Et in G1'. cbn [app] in G1'.
  eapply mb_find; [exact W|exact Hc3|exact G1'|]. intros s2 G2. cbn [negb]. eapply mb_getpos; [exact G2|].
  change (c3 :: r3 ++ w' ++ R) with ((c3 :: r3) ++ w' ++ R) in G2. rewrite <- Et in G2.
  eapply mb_expr; [exact G2|exact He|apply ws_folb; auto|exact Kp|exact E|]. intros s3 V G3.
  eapply mb_token; [exact G3| |].
  - cbn [tok_ev]. unfold ebind. rewrite Kw. reflexivity.
  - intros [k'|] s4 Ek G4; [|discriminate]. injection Ek as ->. apply mb_inc_code.
    assert (H1 : meets (InInc fields (d + 1) k) e0 x'' ((((P ++ [60]) ++ w) ++ t) ++ w') R) by (ascg; exact H).
    destruct (back_ws (InInc fields (d + 1) k) x'' _ w' I W' e0 R F H1) as [_ H2].
    exact (H2 Kp m s4 G4).
Qed.
Lemma back_inc_value fields d k x P :
  back (InInc fields d k) x P (AtValue Whole fields d (Some c_gt)) x P [].
Proof.
  intros e0 R (c & r & -> & Hc1) H. split; [exact I|]. intros Kp n s G. cbn [app] in G.
  unfold inc_code. eapply mb_find0; [exact Hc1|exact G|]. intros s1 G1. cbn [negb].
  eapply mb_getpos; [exact G1|]. apply mb_bind. exact (H Kp n s1 G1).
Qed.

(** *** Signs, names and dots *)
Lemma mb_sign e P R x s n ps l k d close (b : bool) op : good P (unop_text op :: R) x s ->
  (forall m s', good (P ++ [unop_text op]) R x s' -> mb e (
      let* '(line, col) := getpos in
      let* o := peek in
      match o with
      | None => fail (UnexpectedEnd line)
      | Some _ =>
          let* res := parse_value fs li m ps line col (d + 1) close false in
          unary_op_on_value res op line col
      end) s') ->
  mb e (parse_value fs li n ps l k d close b) s.
Proof.
  intros G H. eapply mb_value; [exact G|]. intros m.
  replace (dsp m ps l k d close (unop_text op)) with (parse_unary_op fs li m ps d close op) by (destruct op; reflexivity).
  destruct m as [|m]; [exact I|]. rewrite parse_unary_op_S. eapply mb_next; [exact G|]. intros s1 G1.
  apply mb_assert; [destruct op; reflexivity|]. exact (H m s1 G1).
Qed.
Lemma back_sign r fields d close x P op : r <> Index ->
  back (AtValue r fields d close) x P (AtValue Operand fields (d + 1) close) x (P ++ [unop_text op]) [unop_text op].
Proof.
  intros Nr e R F H. split; [apply fits_value; auto; destruct op; reflexivity|]. intros Kp n s G. cbn [app] in *.
  eapply mb_sign; [exact G|]. intros m s1 G1. eapply mb_getpos; [exact G1|].
  cbn [Spot.fits] in F. destruct R as [|c R]; [congruence|]. eapply mb_peek; [exact G1|]. apply mb_bind. exact (H Kp m s1 G1).
Qed.
Lemma lod_solid c : letter_or_digit c -> is_whitespace c = false /\ is_end_delimiter c = false.
Proof.
  intros H. apply lod_not_end in H. unfold is_value_end_char in H. rewrite !orb_false_iff in H. tauto.
Qed.
Lemma back_name r fields d close x P : back (AtValue r fields d close) x P (AtName false fields d close) x P [].
Proof.
  intros e R (c & r0 & -> & Hc) H. cbn [app]. split.
  - assert (S : is_whitespace c = false /\ is_end_delimiter c = false).
    { destruct Hc as [Hc| ->]; [apply lod_solid, letter_lod; auto|split; reflexivity]. }
    destruct r; try (apply fits_value; [discriminate|apply S|apply S]). cbn [Spot.fits]. rewrite headed_cons.
    destruct Hc as [Hc| ->]; auto. left. left. left. auto.
  - intros Kp n s G. eapply mb_value; [exact G|]. intros m.
    replace (dsp m fields (line_of P) (col_of P) d close c) with (parse_variable fs li m fields (line_of P) (col_of P) d close)
      by (symmetry; destruct Hc as [Hc| ->]; [apply disp_var; auto|apply disp_at]).
    exact (H Kp m s G).
Qed.
Lemma scan_var_scanned acc r l k y q : scan_var r l k acc = (y, q) -> exists con, scanned r l k con q.
Proof. intros E. apply scan_var_spec in E as (con & E & _). eauto. Qed.
Lemma good_front glob m R u R' res P x s : Forall letter_or_digit m -> (glob = false -> hd_error (m ++ R) <> Some 64) ->
  with_at glob m ++ R <> [] -> R = u ++ R' ->
  (forall l k, exists l' k', scan_var R l k (with_at glob m) = (res, (R', l', k'))) ->
  good P (with_at glob m ++ R) x s ->
  exists s', var_front s = (Ok (res, glob), s') /\ good (P ++ with_at glob m ++ u) R' x s'.
Proof.
  intros Hm H64 Nn -> Sc G. unfold var_front, peek_unwrap, bind, peek.
  destruct glob; cbn [with_at] in *.
  - cbn [app] in G. destruct (good_next _ _ _ _ _ _ G) as [E1 G1]. rewrite app_assoc in G1.
    destruct (good_scan file (fun r l k => scan_var r l k [64]) _ _ R' x _ res (scan_var_scanned [64]) G1) as (s' & E & G').
    { intros l k. rewrite <- app_assoc. destruct (scan_var_go m (u ++ R') Hm l k [64]) as (l1 & k1 & ->). cbn [app]. apply Sc. }
    exists s'. pose proof G as (R & _). rewrite R. cbn [app unwrap ret]. unfold ret. change (64 =? 64) with true. cbv iota.
    unfold next_unwrap, bind. rewrite E1. cbn [unwrap ret]. unfold ret. rewrite <- app_assoc in E. rewrite E. split; [reflexivity|].
    asc G'. ascg. exact G'.
  - specialize (H64 eq_refl). rewrite app_assoc in G.
    destruct (good_scan file (fun r l k => scan_var r l k []) _ _ R' x _ res (scan_var_scanned []) G) as (s' & E & G').
    { intros l k. rewrite <- app_assoc. destruct (scan_var_go m (u ++ R') Hm l k []) as (l1 & k1 & ->). cbn [app]. apply Sc. }
    exists s'. pose proof G as (R & _). rewrite <- app_assoc in R. destruct (m ++ u ++ R') as [|c r] eqn:Em; [congruence|].
    rewrite R. cbn [unwrap ret]. unfold ret. replace (c =? 64) with false by (symmetry; apply N.eqb_neq; cbn in H64; congruence).
    rewrite E. split; [reflexivity|exact G'].
Qed.
Lemma lod_not_at m R : Forall letter_or_digit m -> hd_error R <> Some 64 -> hd_error (m ++ R) <> Some 64.
Proof. intros [|c r H _] N; [exact N|]. cbn. apply lod_range in H. intros E. injection E as ->. lia. Qed.
Lemma good_front_dot glob m R P x s : Forall letter_or_digit m -> good P (with_at glob m ++ 46 :: R) x s ->
  exists s', var_front s = (Ok (VS_dot (with_at glob m), glob), s') /\ good (P ++ with_at glob m ++ [46]) R x s'.
Proof.
  intros Hm G. apply (good_front glob m (46 :: R) [46] R (VS_dot (with_at glob m)) P x s Hm); auto.
  - intros _. apply lod_not_at; auto. cbn. discriminate.
  - destruct glob, m; discriminate.
  - intros l k. cbn [scan_var]. destruct (adv 46 l k). change (46 =? 46) with true. cbv iota. eauto.
Qed.
Lemma after_dot_iff c : after_dot c <-> is_valid_field_char c true || is_numeric_char c = true.
Proof.
  unfold after_dot, starts_name, letter, is_valid_field_char. cbn [negb]. rewrite orb_true_iff.
  destruct (ch_is_alphabetic c); [intuition|]. unfold is_numeric_char. destruct (is_digit c); [intuition|].
  destruct (N.eqb_spec c 95) as [->|]; [intuition|]. destruct (N.eqb_spec c 94) as [->|]; [intuition|]. intuition; congruence.
Qed.
Lemma after_dot_solid c : after_dot c -> is_whitespace c = false /\ is_end_delimiter c = false /\ c <> 64.
Proof.
  intros [[H| ->]|H].
  - apply letter_lod in H. pose proof (lod_range _ H). apply lod_solid in H. split; [tauto|]. split; [tauto|lia].
  - repeat split; try reflexivity. discriminate.
  - unfold is_numeric_char in H. rewrite !orb_true_iff, !N.eqb_eq, digit_range in H.
    assert (K : head_ok c) by (apply head_range; lia). destruct K. split; [auto|]. split; [auto|lia].
Qed.
Lemma var_lod glob n : var_name glob n -> Forall letter_or_digit n.
Proof. intros (c & r & -> & Hc & Hr). constructor; auto. destruct glob; auto using letter_lod. Qed.
Lemma mb_lookup {C} e (f : value -> M C) P R x s ps glob n l k v x' : good P R x s -> okps ps -> var_name glob n ->
  ev_name ps glob n x = Some (v, x') ->
  (forall s', okv v -> good P R x' s' -> mb e (f v) s') -> mb e (bind (lookup_variable ps (with_at glob n) glob l k) f) s.
Proof.
  intros G Kp Hn E H. assert (G0 : good P ([] ++ R) x s) by exact G.
  eapply (mb_agr file e okv idp); [|exact G0|apply keeps_lookup|exact E|].
  - destruct G as (<- & _ & _ & K & _). replace (with_at glob n) with ((if glob then [64] else []) ++ n) by (destruct glob; reflexivity).
    apply (lookup_agr s ps glob n l k Hn K Kp).
  - intros a s' -> G' V. rewrite app_nil_r in G'. apply H; auto.
Qed.
Lemma fits_name dot fields d close glob n R : var_name glob n -> dot && glob = false ->
  fits (AtName dot fields d close) (with_at glob n ++ R).
Proof.
  intros (c & r & -> & Hc & _) Dg. destruct dot, glob; try discriminate; cbn [Spot.fits with_at app]; rewrite headed_cons; auto.
  left. left. exact Hc.
Qed.
(** a name followed by a dot *)
Lemma mb_dotted e P x s n0 ps l k d close glob n c r v x' : good P (with_at glob n ++ 46 :: c :: r) x s ->
  var_name glob n -> okps ps -> after_dot c \/ c = 64 -> ev_name ps glob n x = Some (v, x') ->
  let P' := P ++ with_at glob n ++ [46] in
  (forall m s', okv v -> good P' (c :: r) x' s' -> mb e (
    match v with
    | VArr a =>
        let* idx := parse_value fs li m ps (line_of P') (col_of P') (d + 1) close false in
        index_by (arr_get a) idx (line_of P') (col_of P')
    | VTup t =>
        let* idx := parse_value fs li m ps (line_of P') (col_of P') (d + 1) close false in
        index_by (tup_get t) idx (line_of P') (col_of P')
    | VObj o =>
        if c =? 64 then fail (InvalidValueChar c_at (line_of P') (col_of P'))
        else parse_variable fs li m (obj_pairs o) (line_of P') (col_of P') (d + 1) close
    | _ => fail (InvalidDot (get_type v) l k)
    end) s') ->
  mb e (parse_variable fs li n0 ps l k d close) s.
Proof.
  intros G Hn Kp Hc E P' H. destruct n0 as [|n0]; [exact I|]. eapply mb_at; [apply parse_variable_fb|].
  destruct (good_front_dot _ _ _ _ _ _ (var_lod _ _ Hn) G) as (s1 & E1 & G1). fold P' in G1.
  eapply mb_ok; [exact E1|]. unfold var_back. cbv beta iota. apply mb_assoc. eapply mb_peek; [exact G1|].
  assert (X : forall b, b = (c =? 64) -> mb e (
    let* value := lookup_variable ps (with_at glob n) glob l k in
    match value with
        | VArr a =>
            let* '(line, col) := getpos in
            let* idx := parse_value fs li n0 ps line col (d + 1) close false in
            index_by (arr_get a) idx line col
        | VTup t =>
            let* '(line, col) := getpos in
            let* idx := parse_value fs li n0 ps line col (d + 1) close false in
            index_by (tup_get t) idx line col
        | VObj o =>
            let* '(line, col) := getpos in
            if (b : bool) then fail (InvalidValueChar c_at line col)
            else parse_variable fs li n0 (obj_pairs o) line col (d + 1) close
        | _ => fail (InvalidDot (get_type value) l k)
        end) s1).
  { intros b ->. eapply mb_lookup; [exact G1|exact Kp|exact Hn|exact E|]. intros s2 V G2.
    specialize (H n0 s2 V G2). destruct v; try exact H; (eapply mb_getpos; [exact G2|]); exact H. }
  destruct (c =? 64) eqn:C64.
  - apply mb_ret. cbv beta iota. exact (X true eq_refl).
  - replace (is_valid_field_char c true || is_numeric_char c) with true.
    + apply mb_ret. cbv beta iota. exact (X false eq_refl).
    + symmetry. apply after_dot_iff. destruct Hc as [Hc| ->]; [auto|discriminate].
Qed.
Lemma back_member dot fields d close x P glob n o x' : var_name glob n -> dot && glob = false ->
  ev_name fields glob n x = Some (VObj o, x') ->
  back (AtName dot fields d close) x P (AtName true (obj_pairs o) (d + 1) close) x' (P ++ with_at glob n ++ [c_dot]) (with_at glob n ++ [c_dot]).
Proof.
  intros Hn Dg E e R (c & r & -> & Hc) H. rewrite <- app_assoc. cbn [app]. split; [apply fits_name; auto|].
  intros Kp n0 s G. eapply mb_dotted; [exact G|exact Hn|exact Kp|auto|exact E|]. intros m s1 V G1. cbv beta iota.
  replace (c =? 64) with false by (symmetry; apply N.eqb_neq; apply after_dot_solid; auto).
  refine (H _ m s1 G1). destruct o. apply okv_obj in V. apply V.
Qed.
Lemma back_index dot fields d close x P glob n v x' : var_name glob n -> dot && glob = false ->
  ev_name fields glob n x = Some (v, x') -> match v with VArr _ | VTup _ => True | _ => False end ->
  back (AtName dot fields d close) x P (AtValue Index fields (d + 1) close) x' (P ++ with_at glob n ++ [c_dot]) (with_at glob n ++ [c_dot]).
Proof.
  intros Hn Dg E Hv e R (c & r & -> & Hc) H. rewrite <- app_assoc. cbn [app]. split; [apply fits_name; auto|].
  intros Kp n0 s G. eapply mb_dotted; [exact G|exact Hn|exact Kp|exact Hc|exact E|]. intros m s1 V G1. cbv beta iota.
  destruct v; try contradiction; apply mb_bind; exact (H Kp m s1 G1).
Qed.

(** *** Operators *)
Lemma back_first r fields d close x P a t v x' : match r with Whole | Element => True | _ => False end ->
  r_atom a t -> EA d fields a x = Some (v, x') ->
  back (AtValue r fields d close) x P (InChain fields d close (closed_atom a) [] v P) x' (P ++ t) t.
Proof.
  intros Hr Ha E e R F H. destruct (r_atom_head _ _ Ha) as (c & r0 & Et & Hc1 & Hc2). split.
  { rewrite Et. apply fits_value; auto. destruct r; try contradiction; discriminate. }
  intros Kp n s G. assert (Wr : whole r = true) by (destruct r; try contradiction; reflexivity). rewrite Wr.
  destruct n as [|n]; [exact I|]. rewrite parse_value_S. assert (G' := G). rewrite Et in G'. eapply mb_peek_unwrap; [exact G'|].
  cbn [Spot.fits] in F. assert (F' : ended R \/ closed_atom a = true) by tauto.
  eapply (mb_agr file e okv idp); [|exact G|apply keeps_disp|exact E|].
  - destruct G as (G1 & G2 & G3 & G4 & _). exact (disp_closed fs file n a t d fields _ _ close R s c r0 Ha F' Kp G1 G3 G4 Et).
  - intros v0 s1 -> G1 V. specialize (H (conj Kp (conj (Forall_nil _) V)) n s1 G1). cbn in H.
    unfold chain_code, low_code, chain_vals in H. cbn in H. unfold mb, bind in *.
    destruct (parse_ops _ _ _ _ _ _ _ _) as [[[vals ops]|e'| |] s2]; auto.
Qed.
Lemma mb_op {C} e (f : list (value * N * N) * list binop -> M C) P R x s n ps d close vals ops op : good P (op_text op :: R) x s -> 
  (forall m s', good (P ++ [op_text op]) R x s' -> mb e (bind (
              let* o2 := peek in
              match o2 with
              | None => let* l := getline in fail (UnexpectedEnd l)
              | Some _ =>
                  let* '(line2, col2) := getpos in
                  let* val2 := parse_value fs li m ps line2 col2 d close false in
                  if is_priority op then
                    match pop_back vals with
                    | None => panic
                    | Some (vals', (val1, line1, col1)) =>
                        let* res := binary_op_on_values val1 val2 op line2 col2 in
                        parse_ops fs li m ps d close (vals' ++ [(res, line1, col1)]) ops
                    end
                  else
                    parse_ops fs li m ps d close (vals ++ [(val2, line2, col2)]) (ops ++ [op])
              end) f) s') ->
  mb e (bind (parse_ops fs li n ps d close vals ops) f) s.
Proof.
  intros G H. destruct n as [|n]; [exact I|]. rewrite parse_ops_S. apply mb_assoc. eapply mb_peek; [exact G|].
  rewrite op_text_op. apply mb_assoc. eapply mb_next; [exact G|]. intros s1 G1. exact (H n s1 G1).
Qed.
Lemma fits_op cl fields d close terms cur pre op R : fits (InChain fields d close cl terms cur pre) (op_text op :: R).
Proof. cbn [Spot.fits]. right. right. exists (op_text op), R. split; [reflexivity|]. apply op_text_end. Qed.
Lemma back_operand fields d close cl terms cur pre x P op :
  back (InChain fields d close cl terms cur pre) x P (AtValue Operand fields d close) x (P ++ [op_text op]) [op_text op].
Proof.
  intros e R F H. split; [apply fits_op|]. intros (Kp & _) n s G. cbn [app] in G. unfold chain_code.
  eapply mb_op; [exact G|]. intros m s1 G1. apply mb_bind. cbn [Spot.fits] in F. destruct R as [|c R]; [congruence|].
  eapply mb_peek; [exact G1|]. eapply mb_getpos; [exact G1|]. apply mb_bind. exact (H Kp m s1 G1).
Qed.
Lemma chain_vals_snoc terms cur pre op v p : chain_vals (terms ++ [(cur, pre, op)]) v p = chain_vals terms cur pre ++ [(v, line_of p, col_of p)].
Proof. unfold chain_vals. rewrite !map_app. reflexivity. Qed.
Lemma mb_chain_next e P a t R x v x' s ps d close terms cur pre op n : r_atom a t -> ended R \/ closed_atom a = true -> okps ps ->
  EA d ps a x = Some (v, x') -> good P (op_text op :: t ++ R) x s ->
  let P' := P ++ [op_text op] in
  (forall m s', okv v -> good (P' ++ t) R x' s' -> mb e (
     let* x := (if is_priority op then
        let* res := binary_op_on_values cur v op (line_of P') (col_of P') in
        parse_ops fs li m ps d close (map at_pre (map fst terms) ++ [(res, line_of pre, col_of pre)]) (map snd terms)
      else parse_ops fs li m ps d close (chain_vals terms cur pre ++ [(v, line_of P', col_of P')]) (map snd terms ++ [op])) in
     let* _ := check_value_end close in low_code x) s') ->
  mb e (chain_code fs n ps d close (chain_vals terms cur pre) (map snd terms)) s.
Proof.
  intros Ha F Kp E G P' H. unfold chain_code. eapply mb_op; [exact G|]. intros m s1 G1. fold P' in G1.
  destruct (r_atom_head _ _ Ha) as (c & r0 & Et & _). assert (G1' := G1). rewrite Et in G1'. cbn [app] in G1'.
  apply mb_assoc. eapply mb_peek; [exact G1'|]. apply mb_assoc. eapply mb_getpos; [exact G1|]. apply mb_assoc.
  eapply mb_atom; [exact G1|exact Ha|exact F|exact Kp|exact E|]. intros s2 V G2. specialize (H m s2 V G2).
  assert (PB : pop_back (chain_vals terms cur pre) = Some (map at_pre (map fst terms), (cur, line_of pre, col_of pre))).
  { unfold chain_vals. rewrite map_app. apply pop_back_app. }
  rewrite PB. exact H.
Qed.
Lemma back_term fields d close cl terms cur pre x P op a t v x' : is_priority op = false -> r_atom a t -> EA d fields a x = Some (v, x') ->
  back (InChain fields d close cl terms cur pre) x P
    (InChain fields d close (closed_atom a) (terms ++ [(cur, pre, op)]) v (P ++ [op_text op])) x' (P ++ op_text op :: t) (op_text op :: t).
Proof.
  intros Pr Ha E e R F H. split; [apply fits_op|]. intros (Kp & Kt & Kc) n s G. cbn [app] in G.
  assert (F' : ended R \/ closed_atom a = true) by (cbn [Spot.fits] in F; tauto).
  eapply mb_chain_next; [exact Ha|exact F'|exact Kp|exact E|exact G|]. intros m s1 V G1. rewrite Pr.
  rewrite <- (chain_vals_snoc terms cur pre op). 
  replace (map snd terms ++ [op]) with (map snd (terms ++ [(cur, pre, op)])) by (rewrite map_app; reflexivity).
  asc G1. refine (H _ m s1 G1). split; [exact Kp|]. split; [|exact V]. rewrite map_app. apply Forall_app. split; auto. constructor; auto.
Qed.
Lemma mb_prio {C} e (f : value -> M C) P R x s v w op l k p : good P R x s -> is_priority op = true -> okv v -> okv w ->
  op_value op v w = Some p ->
  (forall s', okv p -> good P R x s' -> mb e (f p) s') -> mb e (bind (binary_op_on_values v w op l k) f) s.
Proof.
  intros G Pr V W E H. assert (G0 : good P ([] ++ R) x s) by exact G.
  eapply (mb_agr file e okv idp); [|exact G0|apply keeps_binop| |].
  - destruct G as (<- & _ & _ & K & _). apply (binary_prio_agr s v w op l k Pr K V W).
  - rewrite E. reflexivity.
  - intros a s' -> G' V'. rewrite app_nil_r in G'. apply H; auto.
Qed.
Lemma back_factor fields d close cl terms cur pre x P op a t v x' p : is_priority op = true -> r_atom a t -> EA d fields a x = Some (v, x') ->
  op_value op cur v = Some p ->
  back (InChain fields d close cl terms cur pre) x P
    (InChain fields d close (closed_atom a) terms p pre) x' (P ++ op_text op :: t) (op_text op :: t).
Proof.
  intros Pr Ha E Op e R F H. split; [apply fits_op|]. intros (Kp & Kt & Kc) n s G. cbn [app] in G.
  assert (F' : ended R \/ closed_atom a = true) by (cbn [Spot.fits] in F; tauto).
  eapply mb_chain_next; [exact Ha|exact F'|exact Kp|exact E|exact G|]. intros m s1 V G1. rewrite Pr. apply mb_assoc.
  eapply mb_prio; [exact G1|exact Pr|exact Kc|exact V|exact Op|]. intros s2 V2 G2.
  asc G2. pose proof (H (conj Kp (conj Kt V2)) m s2 G2) as H1. cbv beta iota in H1. unfold chain_code, chain_vals in H1.
  rewrite map_app in H1. exact H1.
Qed.

(** At the beginning of a text of kind [root] only the error [e] is possible. *)
Definition meets_root (root : inc_ty) (e : perr) (x : est) (R : str) : Prop := exists pl, starts root pl /\ meets pl e x [] R.
Theorem spot_sound root x0 pl x P : spot fs file root x0 pl x P -> forall e R, fits pl R -> meets pl e x P R ->
  meets_root root e x0 (P ++ R).
Proof.
  assert (B : forall pl x P pl' x' t, back pl x P pl' x' (P ++ t) t ->
     (forall e R, fits pl R -> meets pl e x P R -> meets_root root e x0 (P ++ R)) ->
     forall e R, fits pl' R -> meets pl' e x' (P ++ t) R -> meets_root root e x0 ((P ++ t) ++ R)).
  { intros pl1 x1 P1 pl' x' t Bk IH e R F H. rewrite <- app_assoc. destruct (Bk e R F H) as [F1 H1]. apply IH; auto. }
  assert (B0 : forall pl x P pl' x', back pl x P pl' x' P [] ->
     (forall e R, fits pl R -> meets pl e x P R -> meets_root root e x0 (P ++ R)) ->
     forall e R, fits pl' R -> meets pl' e x' P R -> meets_root root e x0 (P ++ R)).
  { intros pl1 x1 P1 pl' x' Bk IH e R F H. destruct (Bk e R F H) as [F1 H1]. apply IH; auto. }
  induction 1.
  - intros e R _ H1. exists pl. auto.
  - refine (B _ _ _ _ _ _ _ IHspot). apply back_ws; auto.
  - refine (B _ _ _ _ _ _ _ IHspot). eapply back_item; eauto.
  - refine (B _ _ _ _ _ _ _ IHspot). apply back_item_value with (parent := parent); auto.
  - refine (B _ _ _ _ _ _ _ IHspot). apply back_obj; auto.
  - refine (B _ _ _ _ _ _ _ IHspot). apply back_arr; auto.
  - refine (B _ _ _ _ _ _ _ IHspot). eapply back_arr_next; eauto.
  - refine (B0 _ _ _ _ _ _ IHspot). apply back_arr_value.
  - refine (B _ _ _ _ _ _ _ IHspot). apply back_tup; auto.
  - refine (B _ _ _ _ _ _ _ IHspot). eapply back_tup_next; eauto.
  - refine (B0 _ _ _ _ _ _ IHspot). apply back_tup_value.
  - refine (B _ _ _ _ _ _ _ IHspot). eapply back_arr_file_next; eauto.
  - refine (B0 _ _ _ _ _ _ IHspot). apply back_arr_file_value.
  - refine (B _ _ _ _ _ _ _ IHspot). eapply back_tup_file_next; eauto.
  - refine (B0 _ _ _ _ _ _ IHspot). apply back_tup_file_value.
  - refine (B _ _ _ _ _ _ _ IHspot). apply back_inc; auto.
  - refine (B _ _ _ _ _ _ _ IHspot). eapply back_inc_key; eauto.
  - refine (B0 _ _ _ _ _ _ IHspot). apply back_inc_value.
  - refine (B _ _ _ _ _ _ _ IHspot). apply back_sign; auto.
  - refine (B0 _ _ _ _ _ _ IHspot). apply back_name.
  - refine (B _ _ _ _ _ _ _ IHspot). apply back_member; auto.
  - refine (B _ _ _ _ _ _ _ IHspot). eapply back_index; eauto.
  - refine (B _ _ _ _ _ _ _ IHspot). apply back_first; auto.
  - refine (B _ _ _ _ _ _ _ IHspot). apply back_operand.
  - refine (B _ _ _ _ _ _ _ IHspot). apply back_term; auto.
  - refine (B _ _ _ _ _ _ _ IHspot). eapply back_factor; eauto.
Qed.
End Sound.
