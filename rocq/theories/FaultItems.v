(** * FaultItems: completeness of the faults among the items of an object or of a document. *)
From Verif Require Export FaultChain.
From Coq Require String.
Import String.StringSyntax.
Open Scope N_scope.

Section Items.
Context `{U : Unicode}.
Variable fs : fsys.
Variable file : option str.
Notation li := (load_file fs (inc_fuel fs)).
Notation inc := (include_meaning fs file).
Notation EA := (ev_atom inc limit64).
Notation EE := (ev_expr inc limit64).
Notation good := (good file).
Notation er k := (mkperr file k).
Local Existing Instance noexc.
Variable L : inc_ty -> str -> shared -> outcome value * shared.
Hypothesis HL : forall ty p sh, fst (L ty p sh) = NoFuel \/ li ty p sh = L ty p sh.
Variable root : inc_ty.
Variable x0 : est.
Variable T : str.
Notation spot := (spot fs file root x0).
Notation blamed := (blamed fs file L root x0 T).
Notation eb := (eb fs file L root x0 T).
Notation here := (here fs file root x0 T).
Notation done := (done fs file L root x0 T).
Notation alldone := (alldone fs file L root x0 T).

(** The text of a name. *)
Lemma name_tail r : exists n u, r = n ++ u /\ Forall letter_or_digit n /\
  (u = [] \/ (exists u', u = 58 :: u') \/ exists c u', u = c :: u' /\ ~ letter_or_digit c /\ c <> 58).
Proof.
  destruct (lod_split r) as (n & u & -> & Hn & Hu). exists n, u. split; auto. split; auto. destruct u as [|c u]; [auto|].
  destruct (N.eq_dec c 58) as [->|Nc]; [right; left; eauto|right; right]. exists c, u. auto.
Qed.
Lemma name_split c r : is_whitespace c = false -> is_end_delimiter c = false ->
  (exists f c' r', c :: r = f ++ c' :: r' /\ bad_in_name f c') \/ c :: r = [64] \/ exists f, named (c :: r) f.
Proof.
  intros Hw Hd.
  assert (X : forall pre c1 r1, starts_name c1 -> pre = [] \/ pre = [64] ->
    (exists f c' r', pre ++ c1 :: r1 = f ++ c' :: r' /\ bad_in_name f c') \/ exists f, named (pre ++ c1 :: r1) f).
  { intros pre c1 r1 S1 Hp. destruct (name_tail r1) as (n & u & -> & Hn & Hu).
    assert (Hf : item_name (pre ++ c1 :: n)). { exists c1, n. split; [destruct Hp as [->| ->]; auto|]. auto. }
    destruct Hu as [->|[(u' & ->)|(c0 & u' & -> & H1 & H2)]].
    - right. exists (pre ++ c1 :: n). split; auto. left. rewrite app_nil_r. reflexivity.
    - right. exists (pre ++ c1 :: n). split; auto. right. exists u'. rewrite <- app_assoc. reflexivity.
    - left. exists (pre ++ c1 :: n), c0, u'. split; [rewrite <- app_assoc; reflexivity|]. right. right. auto. }
  destruct (N.eq_dec c 64) as [->|Nc].
  - destruct r as [|c1 r1]; [auto|]. destruct (is_valid_field_char c1 true) eqn:V.
    + apply valid_first in V. destruct (X [64] c1 r1 V) as [H|H]; auto.
    + left. exists [64], c1, r1. split; auto. right. left. split; auto. intros S1. apply valid_first in S1. congruence.
  - destruct (is_valid_field_char c true) eqn:V.
    + apply valid_first in V. destruct (X [] c r V) as [H|H]; auto.
    + left. exists [], c, r. split; auto. left. repeat split; auto. intros S1. apply valid_first in S1. congruence.
Qed.
Lemma kind_var f : item_name f -> kind_of_item f = KField -> var_name false f.
Proof.
  intros (c & r & Hf & Hc & Hr) K. destruct Hf as [->| ->]; [|discriminate K].
  destruct Hc as [Hc| ->]; [|destruct r; discriminate K]. exists c, r. auto.
Qed.

(** Up to the value of an item, with the reader of the model. *)
Definition item_restL n ps par d close f : M (bool * list pair_t * option obj) :=
  let* found := find_char in
  if negb found then let* l := getline in fail (UnexpectedEnd l)
  else
    let* '(value_line, value_col) := getpos in
    let* v := parse_value fs L n ps value_line value_col d close true in
    pair_back f ps par close value_line value_col v.
Lemma item_name_eqL P f sep rest x s n ps par d close : item_name f -> sep_ok sep rest -> may_define f ps par (fst x) ->
  good P (f ++ sep ++ rest) x s ->
  exists s', good (P ++ f ++ sep) rest x s' /\
    parse_field_value_pair fs L (Datatypes.S n) ps par d close s = item_restL n ps par d close f s'.
Proof.
  intros Hf Hs Hm G. rewrite parse_field_value_pair_S. destruct (head_not_end f Hf) as (c & r & Ef & _ & H2 & H3).
  assert (PK : peek_unwrap s = (Ok c, s)).
  { unfold peek_unwrap, bind, peek. destruct G as (-> & _). rewrite Ef. reflexivity. }
  unfold bind at 1. rewrite PK, H2, H3. cbn [andb]. unfold bind at 1, getpos. destruct G as (G1 & G2 & G3 & G4 & G5 & G6).
  rewrite G5, G6. pose proof (good_field file P f sep rest x s Hf Hs (conj G1 (conj G2 (conj G3 (conj G4 (conj G5 G6)))))) as PF.
  unfold may_define in Hm. unfold item_restL, pair_back.
  destruct (kind_of_item f) eqn:Kd; try contradiction; destruct PF as (s' & E & G'); exists s'; (split; [exact G'|]);
    unfold bind at 1; rewrite E; cbv iota.
  - unfold bind at 1. unfold bind at 1, get_globals. destruct G' as (_ & X & _). rewrite <- X in Hm. cbn [fst st] in Hm. rewrite Hm.
    reflexivity.
  - rewrite Hm. reflexivity.
  - rewrite <- (existsb_map f ps). fold (mem_str f (map fst ps)). rewrite Hm. reflexivity.
Qed.
Lemma item_value_eqL P f w c r x s n ps par d close : item_name f -> may_define f ps par (fst x) -> ws w -> is_whitespace c = false ->
  good P (f ++ 58 :: w ++ c :: r) x s ->
  let P' := P ++ f ++ 58 :: w in
  exists s', good P' (c :: r) x s' /\
    parse_field_value_pair fs L (Datatypes.S n) ps par d close s =
    (let* v := parse_value fs L n ps (line_of P') (col_of P') d close true in
     pair_back f ps par close (line_of P') (col_of P') v) s'.
Proof.
  intros Hf Hm W Hc G P'. destruct (item_name_eqL P f [58] (w ++ c :: r) x s n ps par d close) as (s1 & G1 & E1); auto; [right; auto|].
  destruct (good_find _ _ _ _ _ _ _ W Hc G1) as (s2 & E2 & G2).
  replace ((P ++ f ++ [58]) ++ w) with P' in G2 by (unfold P'; rewrite <- !app_assoc; reflexivity).
  exists s2. split; [exact G2|]. rewrite E1. unfold item_restL. unfold bind at 1. rewrite E2. cbn [negb].
  unfold bind at 1, getpos. destruct G2 as (_ & _ & _ & _ & -> & ->). reflexivity.
Qed.
Lemma eb_pair_end n ps par d close s :
  eb (items_codeL fs L n ps par d close) s ->
  eb (let* '(more, ps', par') := pair_find close ps par in
    if (more : bool) then pairs_loop fs L n ps' par' d close else ret (ps', par')) s.
Proof.
  unfold items_codeL, pair_find, FaultDone.eb, bind. destruct (find_char s) as [[[]|e'| |] s']; auto. cbn [negb].
  destruct close; cbn; auto.
Qed.
Lemma item_ev d f e ps par x v x1 : may_define f ps par (fst x) -> EE d ps e x = Some (v, x1) ->
  (kind_of_item f = KParent -> get_type v = TObj) ->
  exists ps' par' x', item_done f v ps par x1 ps' par' x' /\ ev_items (EE d) [(f, e)] ps par x = Some ((ps', par'), x').
Proof.
  unfold may_define, item_done. cbn [ev_items]. intros M E Ho. destruct (kind_of_item f).
  - exists ps, par, ((f, v) :: fst x1, snd x1). split; auto. unfold ebind at 1, eglobals. rewrite M. unfold ebind. rewrite E. reflexivity.
  - subst par. destruct v; try (specialize (Ho eq_refl); discriminate). eexists ps, (Some _), x1. split; [eauto|].
    unfold ebind. rewrite E. reflexivity.
  - exists (ps ++ [(f, v)]), par, x1. split; auto. rewrite M. unfold ebind. rewrite E. reflexivity.
  - contradiction.
Qed.
Lemma item_nm f v ps par x1 ps' par' x' : item_name f -> item_done f v ps par x1 ps' par' x' -> okp (ps, par) -> nmv v -> nmps (fst x1) ->
  okp (ps', par') /\ nmps (fst x').
Proof.
  intros Hf D [[K1 K2] K3] V N. unfold item_done in D. cbn [fst snd] in *. destruct (kind_of_item f) eqn:Kd.
  - destruct D as (-> & -> & ->). split; [split; [split|]; auto|]. constructor; auto.
  - destruct D as (-> & -> & o & -> & ->). split; auto. split; [split; auto|]. cbn. intros p E. injection E as <-. exact V.
  - destruct D as (-> & -> & ->). split; auto. split; [split|]; cbn [fst snd]; auto.
    + rewrite map_app. apply Forall_app. split; auto. constructor; auto. apply kind_var; auto.
    + apply Forall_app. split; auto.
  - contradiction.
Qed.

Lemma done_items n ps par d close x P R s : (forall m, (m < n)%nat -> alldone m) -> here (InItems ps par d close) x P R s ->
  done n (InItems ps par d close) P s.
Proof.
  intros IH H. eapply by_space; [exact I|exact H| |].
  { intros B. destruct close as [b|].
    - eapply by_fault; [exact HL|exact H|]. apply if_end; [discriminate|exact B].
    - cbn [FaultDone.done]. unfold items_codeL. eapply eb_blank; [exact B|eapply here_good; exact H|]. intros s1 G1. apply eb_ret. }
  clear P R s H. intros P c r s Hc H G. pose proof H as (S & ET & _ & _ & N & Kp & Hb). cbn [nmplace] in Kp, Hb.
  assert (Close : forall m P c r x s ps par, c = 125 -> close = Some 125 -> good P (c :: r) x s -> eb (items_codeL fs L m ps par d close) s).
  { clear. intros m P c r x s ps par -> -> G. unfold items_codeL. eapply eb_stay; [|exact G|]; [reflexivity|]. cbn [negb].
    destruct m as [|m]; [exact I|]. rewrite pairs_loop_S. destruct m as [|m]; [exact I|]. rewrite parse_field_value_pair_S.
    apply eb_assoc. eapply eb_peek_unwrap; [exact G|]. cbn [N.eqb Pos.eqb andb]. apply eb_assoc. eapply eb_next; [exact G|]. intros s1 G1.
    apply eb_retb. apply eb_ret. }
  destruct (is_end_delimiter c) eqn:Ed.
  { destruct Hb as [->|Eb].
    - eapply by_fault; [exact HL|exact H|]. apply if_bracket; auto.
    - destruct (N.eq_dec c 125) as [Ec|Nc]; [eapply Close; eauto|]. eapply by_fault; [exact HL|exact H|]. apply if_bracket; auto. }
  destruct (name_split c r Hc Ed) as [(f & c' & r' & E & B)|[E|[f Nm]]].
  { rewrite E in H. eapply by_fault; [exact HL|exact H|]. apply if_char. exact B. }
  { rewrite E in H. eapply by_fault; [exact HL|exact H|]. apply if_lone_at. }
  destruct (name_err f ps par x P) as [k|] eqn:Ne.
  { eapply by_fault with (k := k); [exact HL|exact H|]. unfold name_err in Ne. cbn [fault]. destruct (kind_of_item f) eqn:Kd.
    - destruct (assoc f (fst x)) eqn:A; [|discriminate]. injection Ne as <-. eapply if_dup_global; eauto.
    - destruct par eqn:Ep; [|discriminate]. injection Ne as <-. eapply if_dup_parent; eauto.
    - destruct (mem_str f (map fst ps)) eqn:Em; [|discriminate]. injection Ne as <-. apply if_dup_field; auto. apply mem_str_iff; exact Em.
    - injection Ne as <-. apply if_name; auto. }
  assert (Md : may_define f ps par (fst x)).
  { unfold name_err in Ne. unfold may_define. destruct (kind_of_item f).
    - destruct (assoc f (fst x)); [discriminate|reflexivity].
    - destruct par; [discriminate|reflexivity].
    - destruct (mem_str f (map fst ps)); [discriminate|reflexivity].
    - discriminate. }
  clear Ne. destruct Nm as (Hf & [E|(r0 & E)]).
  { rewrite E in H. eapply by_fault; [exact HL|exact H|]. apply if_no_colon; auto. }
  destruct (split_ws x0 r0) as [B|(w & c1 & r1 & -> & W & Hc1)].
  { rewrite E in H. eapply by_fault; [exact HL|exact H|]. apply if_no_value; auto. }
  cbn [FaultDone.done]. unfold items_codeL. eapply eb_stay; [exact Hc|exact G|]. cbn [negb]. rewrite E in G, H, ET. clear E c r Hc Ed.
  destruct n as [|n]; [exact I|]. rewrite pairs_loop_S. destruct n as [|n]; [exact I|].
  destruct (item_value_eqL P f w c1 r1 x s n ps par d close Hf Md W Hc1 G) as (s1 & G1 & E1).
  eapply eb_eqb; [exact E1|]. clear E1. apply eb_assoc. set (P' := P ++ f ++ 58 :: w) in *. apply eb_bind.
  { apply (IH n (Nat.lt_lt_succ_r _ _ (Nat.lt_succ_diag_r n)) (AtValue Whole ps d close) x P' (c1 :: r1) s1).
    split; [eapply spot_item_value; eauto|]. split; [unfold P'; ascg; exact ET|]. split; [exists c1, r1; auto|]. split; [exact G1|].
    split; [exact N|]. apply Kp. }
  intros v s2 E2. destruct (val_full _ _ _ HL _ _ _ _ _ _ _ _ _ _ _ _ E2 G1 N (proj1 Kp)) as (e & t & R' & x1 & ER & He & Fb & Ev & G2 & N2 & Nv).
  rewrite ER in H, ET.
  assert (Dec : {kind_of_item f = KParent /\ get_type v <> TObj} + {kind_of_item f = KParent -> get_type v = TObj}).
  { destruct (kind_of_item f); try (right; discriminate). destruct v; (right; reflexivity) || (left; split; [reflexivity|discriminate]). }
  destruct Dec as [[Kd Nt]|Ho].
  { assert (Par : par = None) by (unfold may_define in Md; rewrite Kd in Md; exact Md).
    unfold pair_back. rewrite Kd. apply eb_assoc.
    assert (Bl : blamed (er (data_fault (OE_TypeMismatch TObj (get_type v)) P'))).
    { eapply here_fault; [exact H|]. unfold P'. eapply if_parent; eauto. apply folb_complete. exact Fb. }
    pose proof (good_file _ _ _ _ _ G2) as F2.
    destruct v; try (exfalso; apply Nt; reflexivity); apply eb_assoc; (eapply eb_ok; [reflexivity|]); apply eb_bind;
      (unfold FaultDone.eb, raise; rewrite F2; exact Bl) || (intros; discriminate). }
  destruct (item_ev d f e ps par x v x1 Md Ev Ho) as (ps' & par' & x2 & D & Ei).
  destruct (item_nm _ _ _ _ _ _ _ _ Hf D Kp Nv N2) as [Kp' N3].
  destruct (pair_back_eq _ _ _ _ _ f v ps par close (line_of P') (col_of P') _ _ _ G2 (nmv_okv _ Nv) (okp_okf _ Kp) Hf D) as (s3 & G3 & _ & E3).
  eapply eb_eqb; [exact E3|]. apply eb_pair_end.
  destruct (after_value x0 _ _ Fb) as [B|[(w' & c2 & r2 & -> & W' & Nw & Hc2)|(c2 & r2 & -> & _ & Ec2)]].
  - unfold items_codeL. eapply eb_blank; [exact B|exact G3|]. intros s4 G4. cbn [negb]. destruct close as [b|]; [|apply eb_ret].
    eapply eb_line; [exact G4|reflexivity|]. unfold P'. ascg. eapply here_fault; [exact H|]. eapply if_end_item; eauto. discriminate.
  - refine (go_on fs file L root x0 T (Datatypes.S n) (InItems ps' par' d close) x2 (P' ++ t) w' c2 r2 s3
      (IH _ (Nat.lt_succ_diag_r _)) I _ _ G3 N3 _ W' Hc2).
    + unfold P'. ascg. eapply spot_item; eauto.
    + unfold P'. ascg. exact ET.
    + cbn [nmplace]. auto.
  - destruct Hb as [->|Hb]; [discriminate|]. eapply Close; [|exact Hb|exact G3]. congruence.
Qed.
End Items.
