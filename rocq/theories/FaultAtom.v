(** * FaultAtom: completeness of the faults where a value begins. *)
From Verif Require Export FaultSeq.
From Coq Require String.
Import String.StringSyntax.
Open Scope N_scope.

(** ** Texts *)
Section Texts.
Context `{U : Unicode}.
(** The text after a quote: a string, a bad escape sequence or no end. *)
Lemma str_split R : 
  (exists cs r, Forall good_schar cs /\ R = flat_map schar_text cs ++ c_quote :: r) \/
  (exists cs c r, Forall good_schar cs /\ schar_value (SEsc c) = None /\ R = flat_map schar_text cs ++ c_bslash :: c :: r) \/
  (exists cs u, Forall good_schar cs /\ (u = [] \/ u = [c_bslash]) /\ R = flat_map schar_text cs ++ u).
Proof.
  remember (length R) as n eqn:En. revert R En. induction n as [n IH] using lt_wf_ind. intros R En.
  destruct R as [|c R].
  { right. right. exists [], []. split; [constructor|]. auto. }
  assert (Step : forall y R', good_schar y -> (length R' < n)%nat -> c :: R = schar_text y ++ R' ->
    (exists cs r, Forall good_schar cs /\ c :: R = flat_map schar_text cs ++ 34 :: r) \/
    (exists cs c0 r, Forall good_schar cs /\ schar_value (SEsc c0) = None /\ c :: R = flat_map schar_text cs ++ 92 :: c0 :: r) \/
    (exists cs u, Forall good_schar cs /\ (u = [] \/ u = [92]) /\ c :: R = flat_map schar_text cs ++ u)).
  { intros y R' Hy Lt ->. destruct (IH _ Lt R' eq_refl) as [(cs & r & H & ->)|[(cs & c0 & r & H & H' & ->)|(cs & u & H & H' & ->)]].
    - left. exists (y :: cs), r. cbn [flat_map]. rewrite <- app_assoc. auto.
    - right. left. exists (y :: cs), c0, r. cbn [flat_map]. rewrite <- app_assoc. auto.
    - right. right. exists (y :: cs), u. cbn [flat_map]. rewrite <- app_assoc. auto. }
  cbn [length] in En. destruct (N.eq_dec c 34) as [->|Nq].
  { left. exists [], R. auto. }
  destruct (N.eq_dec c 92) as [->|Nb].
  - destruct R as [|c R]. { right. right. exists [], [92]. split; [constructor|]. auto. }
    destruct (schar_value (SEsc c)) as [v|] eqn:Ev.
    + apply (Step (SEsc c) R); [|cbn [length] in En; lia|reflexivity]. split; [exact I|congruence].
    + right. left. exists [], c, R. auto.
  - apply (Step (SPlain c) R); [|lia|reflexivity]. split; [split; assumption|discriminate].
Qed.
Lemma good_str_value cs : Forall good_schar cs -> exists v, str_value cs = Some v.
Proof.
  unfold str_value. induction 1 as [|y cs [_ Hy] H [v IH]]; cbn [map all_some]; [eauto|].
  destruct (schar_value y); [|congruence]. rewrite IH. eauto.
Qed.
Lemma good_str_ok cs : Forall good_schar cs -> Forall schar_ok cs.
Proof. intros H. eapply Forall_impl; [|exact H]. intros y [Hy _]. exact Hy. Qed.
(** The longest text of a number. *)
Lemma num_split R : forall w, num_ok w -> exists w' r, w ++ R = w' ++ r /\ num_ok w' /\
  (ended r \/ exists c r', r = c :: r' /\ is_value_end_char c = false /\ ~ num_ok (w' ++ [c])).
Proof.
  induction R as [|c R IH]; intros w Hw.
  { exists w, []. split; auto. split; auto. left. left. reflexivity. }
  destruct (is_value_end_char c) eqn:Ec.
  { exists w, (c :: R). split; auto. split; auto. left. right. exists c, R. auto. }
  destruct (num_char c && negb (last_under false w && (c =? c_under)) && negb (existsb is_point w && is_point c)) eqn:D.
  - apply andb_prop in D as [D D3]. apply andb_prop in D as [D1 D2]. apply negb_true_iff in D2, D3.
    destruct (IH (w ++ [c])) as (w' & r & E & H); [apply num_ok_snoc; auto|]. exists w', r. rewrite <- app_assoc in E. auto.
  - exists w, (c :: R). split; auto. split; auto. right. exists c, R. split; auto. split; auto. intros Hn.
    apply num_ok_snoc in Hn as (H1 & H2 & H3); auto. rewrite H1, H2, H3 in D. discriminate.
Qed.
Lemma num_first c : is_numeric_char c = true -> num_ok [c].
Proof.
  intros H. split; [|split; [reflexivity|cbn; destruct (is_point c); cbn; lia]].
  exists c, []. split; auto. unfold num_char. unfold is_numeric_char in H. rewrite H. split; auto. split; auto. intros ->. discriminate.
Qed.
Lemma split_digits w : digits w = let '(a, b) := split_point w in match b with None => digits a | Some b => digits a ++ digits b end.
Proof.
  unfold digits. induction w as [|c w IH]; [reflexivity|]. cbn [split_point]. destruct (is_point c) eqn:Pc.
  - cbn [filter app]. replace (is_digit c) with false; auto. symmetry. unfold is_point in Pc. rewrite orb_true_iff, !N.eqb_eq in Pc.
    destruct Pc as [-> | ->]; reflexivity.
  - destruct (split_point w) as [a [b|]]; cbn [filter]; destruct (is_digit c); rewrite IH; reflexivity.
Qed.
Lemma split_points w a b : split_point w = (a, Some b) -> length (filter is_point w) = Datatypes.S (length (filter is_point b)).
Proof.
  revert a b. induction w as [|c w IH]; intros a b; cbn [split_point filter]; [discriminate|].
  destruct (is_point c); [intros E; injection E as <- <-; reflexivity|]. destruct (split_point w) as [a' [b'|]]; [|discriminate].
  intros E. injection E as <- <-. apply (IH a'). reflexivity.
Qed.
Lemma num_ok_value w : num_ok w -> digits w <> [] -> exists v, num_value w = Some v.
Proof.
  intros (_ & D & Q) N. unfold num_value. rewrite D. rewrite split_digits in N. destruct (split_point w) as [a [b|]] eqn:E.
  - apply split_points in E. replace (existsb is_point b) with false.
    + destruct (digits a ++ digits b); [congruence|eauto].
    + symmetry. destruct (filter is_point b) as [|z l] eqn:Fb; [|cbn [length] in E; lia].
      destruct (existsb is_point b) eqn:Eb; auto. apply existsb_exists in Eb as (z & Hz & Pz).
      assert (In z (filter is_point b)) by (apply filter_In; auto). rewrite Fb in H. contradiction.
  - destruct (digits a); [congruence|eauto].
Qed.
(** The longest run of letters and digits. *)
Lemma lod_dec c : {letter_or_digit c} + {~ letter_or_digit c}.
Proof. destruct (is_valid_field_char c false) eqn:E; [left|right]; rewrite <- valid_rest; congruence. Qed.
Lemma lod_split R : exists n r, R = n ++ r /\ Forall letter_or_digit n /\ match r with [] => True | c :: _ => ~ letter_or_digit c end.
Proof.
  induction R as [|c R (n & r & -> & Hn & Hr)]; [exists [], []; auto|]. destruct (lod_dec c) as [H|H].
  - exists (c :: n), r. auto.
  - exists [], (c :: n ++ r). auto.
Qed.
End Texts.

Section Atom.
Context `{U : Unicode}.
Variable fs : fsys.
Variable file : option str.
Notation li := (load_file fs (inc_fuel fs)).
Notation inc := (include_meaning fs file).
Notation EA := (ev_atom inc limit64).
Notation EE := (ev_expr inc limit64).
Notation good := (good file).
Notation er k := (mkperr file k).
Local Existing Instance noexc.
Variable L : inc_ty -> str -> shared -> outcome value * shared.
Hypothesis HL : forall ty p sh, fst (L ty p sh) = NoFuel \/ li ty p sh = L ty p sh.
Variable root : inc_ty.
Variable x0 : est.
Variable T : str.
Notation spot := (spot fs file root x0).
Notation blamed := (blamed fs file L root x0 T).
Notation eb := (eb fs file L root x0 T).
Notation here := (here fs file root x0 T).
Notation done := (done fs file L root x0 T).
Notation alldone := (alldone fs file L root x0 T).
Notation dsp := (AgreeMain.disp fs L).

Lemma eb_agr {A B} (Q : B -> Prop) (pr : A -> B) (m : M A) (ev : ES B) R R' P x s :
  agr Q pr m ev R s -> good P R' x s -> ev x <> None -> eb m s.
Proof.
  intros Ag (_ & X & _) E. unfold agr in Ag. unfold FaultDone.eb. destruct (m s) as [[a|e| |] s']; auto.
  rewrite X in Ag. destruct Ag as [Ag|Ag]; [contradiction|contradiction].
Qed.
Lemma by_disp n r ps d close x P c R s : (forall m, (m < Datatypes.S n)%nat -> alldone m) -> here (AtValue r ps d close) x P (c :: R) s ->
  eb (dsp n ps (line_of P) (col_of P) d close c) s -> done (Datatypes.S n) (AtValue r ps d close) P s.
Proof.
  intros IH H D. pose proof (here_good _ _ _ _ _ _ _ _ _ _ H) as G. cbn [FaultDone.done]. rewrite parse_value_S.
  eapply eb_peek_unwrap; [exact G|]. apply eb_bind; [exact D|]. intros v s1 E.
  destruct (whole r) eqn:Wr; [|apply eb_ret].
  pose proof H as (S & ET & _ & _ & N & Nf). cbn [nmplace] in Nf.
  assert (EV : parse_value fs L (Datatypes.S n) ps (line_of P) (col_of P) d close false s = (Ok v, s1)).
  { rewrite parse_value_S. assert (Pk : peek_unwrap s = (Ok c, s)).
    { unfold peek_unwrap, bind, peek. destruct G as (-> & _). reflexivity. }
    unfold bind at 1. rewrite Pk. change (bind (dsp n ps (line_of P) (col_of P) d close c) (fun res => ret res) s = (Ok v, s1)).
    change (dsp n ps (line_of P) (col_of P) d close c s = (Ok v, s1)) in E. unfold bind. rewrite E. reflexivity. }
  destruct (val_atom _ _ _ HL _ _ _ _ _ _ _ _ _ _ _ _ EV G N Nf) as (a & t & R' & x' & ER & Ha & Fb & _ & Ev & G1 & N1 & Nv).
  assert (HC : done n (InChain ps d close (closed_atom a) [] v P) (P ++ t) s1).
  { apply (IH n (Nat.lt_succ_diag_r n) _ x' (P ++ t) R').
    split; [eapply spot_first; eauto; destruct r; try discriminate Wr; exact I|].
    split; [rewrite <- app_assoc, <- ER; exact ET|]. split; [cbn [Spot.fits]; tauto|]. split; [exact G1|]. split; [exact N1|].
    cbn [nmplace map]. auto. }
  revert HC. cbn [FaultDone.done chain_vals map app]. unfold chain_codeL, low_code, FaultDone.eb, bind, at_pre. cbn [fst snd].
  destruct (parse_ops _ _ _ _ _ _ _ _) as [[[vals ops]|e'| |] s2]; auto.
Qed.
Lemma eb_items_in {B} n ps par d c (g : _ -> M B) s : eb (items_codeL fs L n ps par d (Some c)) s -> (forall x s', eb (g x) s') ->
  eb (let* found := find_char in
        if negb found then let* l := getline in fail (UnexpectedEnd l)
        else let* x := pairs_loop fs L n ps par d (Some c) in g x) s.
Proof.
  unfold items_codeL, FaultDone.eb, bind. destruct (find_char s) as [[[]|e'| |] s']; auto. cbn [negb].
  intros H K. destruct (pairs_loop _ _ _ _ _ _ _ _) as [[y|e'| |] s2]; auto. apply K.
Qed.
Lemma not_starts c : ~ starts_value c -> forall m ps l k d close, dsp m ps l k d close c =
  if c =? 94 then parse_variable fs L m ps l k d close else fail (InvalidValueChar c l k).
Proof.
  intros H m ps l k d close. unfold starts_value in H. unfold AgreeMain.disp.
  assert (N : forall z, In z [64; 34; 123; 91; 40; 60; 43; 45] -> (c =? z) = false).
  { intros z Hz. apply N.eqb_neq. intros ->. tauto. }
  rewrite !N by (cbn; tauto). destruct (is_numeric_char c) eqn:Nc; [tauto|]. rewrite orb_false_r.
  destruct (is_valid_field_char c true) eqn:V.
  - apply valid_first in V as [V| ->]; [tauto|]. reflexivity.
  - destruct (N.eqb_spec c 94) as [->|]; [discriminate V|]. reflexivity.
Qed.
Lemma no_gt : ~ starts_value 62.
Proof.
  intros [Hl|[Hn|Hn]]; [apply letter_lod, lod_range in Hl; lia|discriminate|].
  cbn in Hn. repeat destruct Hn as [Hn|Hn]; try discriminate; contradiction.
Qed.
Lemma okp_nil : okp ([], None).
Proof. split; [split; constructor|discriminate]. Qed.
Lemma not_index r ps d close c R : fits (AtValue r ps d close) (c :: R) -> In c [34; 123; 91; 40; 60; 43; 45] -> r <> Index.
Proof.
  intros F Hc ->. destruct F as (c' & r' & E & H). injection E as <- <-. cbn in Hc. destruct H as [[[H|H]|H]|H].
  - apply letter_lod, lod_range in H. lia.
  - lia.
  - repeat (destruct Hc as [<-|Hc]; [discriminate H|]). exact Hc.
  - lia.
Qed.

Lemma eb_inc_code n ps d k s : eb (inc_codeL fs L n ps d k) s ->
  eb (let* '(include_type, v, line, col) :=
    (let* found := find_char in
     if negb found then let* l := getline in fail (UnexpectedEnd l)
     else
       let* '(line, col) := getpos in
       let* v := parse_value fs L n ps line col d (Some c_gt) true in
       ret (k, v, line, col)) in
    inc_tailL fs L include_type v line col) s.
Proof.
  unfold inc_codeL. intros H. apply eb_assoc. unfold FaultDone.eb, bind in *. destruct (find_char s) as [[[]|e'| |] s']; auto. cbn [negb] in *.
  cbn [getpos] in *. destruct (parse_value _ _ _ _ _ _ _ _ _ _) as [[]]; auto.
Qed.
Lemma eb_token {C} (f : inc_ty + unit -> M C) P R x v s l k : good P R x s ->
  (~ include_word v x -> blamed (er (InvalidIncludeToken (get_type v) l k))) ->
  (forall a s' x', tok_ev v x = Some (tok_pr a, x') -> good P R x' s' -> fst x' = fst x -> eb (f a) s') -> eb (bind (include_token v l k) f) s.
Proof.
  intros G H1 H2. pose proof G as (RS & X & F & K & _). pose proof (token_agr s v l k K) as Ag. apply eb_bind.
  - unfold FaultDone.eb. unfold agr in Ag. destruct (include_token v l k s) as [[a|e| |] s'] eqn:E; auto.
    apply errs_token in E as ->. rewrite F. apply H1. rewrite include_word_iff, <- X. destruct Ag as [Ag|Ag]; [contradiction|]. rewrite Ag. auto.
  - intros a s' E. rewrite RS in Ag. assert (G0 : good P ([] ++ R) x s) by exact G.
    destruct (agr_good _ _ _ _ _ _ _ _ _ _ _ _ Ag G0 (keeps_token _ _ _ _) E) as (x' & Ev & G' & _).
    rewrite app_nil_r in G'. eapply H2; eauto.
    assert (Gl : s_globals s' = s_globals s).
    { clear - E. unfold include_token in E. destruct v; try discriminate; [injection E as _ <-; reflexivity|].
      assert (Sg : forall t s a s', sentinel t s = (Ok a, s') -> s_globals s' = s_globals s).
      { intros t z y z' Ez. unfold sentinel in Ez. destruct (g_sent (sh_g (s_sh z)) t); injection Ez as _ <-; reflexivity. }
      unfold bind in E.
      repeat match type of E with context [sentinel ?t ?z] => let q := fresh in let Eq := fresh in destruct (sentinel t z) as [q ?] eqn:Eq;
        destruct q; try discriminate; apply Sg in Eq; destruct (obj_ptr_eq _ _); [injection E as _ <-; congruence|] end.
      discriminate. }
    destruct G' as (_ & <- & _). rewrite <- X. exact Gl.
Qed.
(** *** The first character *)
Lemma done_value n r ps d close x P R s : (forall m, (m < n)%nat -> alldone m) -> here (AtValue r ps d close) x P R s ->
  done n (AtValue r ps d close) P s.
Proof.
  intros IH H. destruct n as [|n]; [exact I|].
  assert (HR : exists c R0, R = c :: R0).
  { destruct H as (_ & _ & F & _). destruct r; cbn [Spot.fits] in F; try (destruct F as (c & R0 & -> & _); eauto). destruct R; [congruence|eauto]. }
  destruct HR as (c & R0 & ->). pose proof (here_good _ _ _ _ _ _ _ _ _ _ H) as G.
  pose proof H as (S & ET & Ft & _ & N & Nf). cbn [nmplace] in Nf.
  assert (IHs : forall m, (Datatypes.S m <= n)%nat -> alldone m) by (intros m Hm; apply IH; lia).
  assert (Deep : In c [c_lbrace; c_lbrack; c_lparen; c_lt] -> (d < 64 -> done (Datatypes.S n) (AtValue r ps d close) P s) ->
     done (Datatypes.S n) (AtValue r ps d close) P s).
  { intros Hc Hd. destruct (N.lt_ge_cases d 64) as [D|D]; [auto|]. eapply by_fault; [exact HL|exact H|]. apply vf_deep; auto. }
  destruct (N.eq_dec c 34) as [->|Nq].
  { destruct (str_split R0) as [(cs & r0 & Hcs & ->)|[(cs & c & r0 & Hcs & He & ->)|(cs & u & Hcs & Hu & ->)]].
    - eapply by_disp; [exact IH|exact H|]. 
      change (dsp n ps (line_of P) (col_of P) d close 34) with (AgreeMain.disp fs li n ps (line_of P) (col_of P) d close 34).
      eapply (eb_agr okv idp) with (R := r0); [|exact G|].
      + pose proof G as (G1 & _ & G3 & G4 & _).
        apply (disp_closed fs file n (AStr cs) (34 :: flat_map schar_text cs ++ [34]) d ps (line_of P) (col_of P) close r0 s 34 (flat_map schar_text cs ++ [34]));
          auto; [constructor; apply good_str_ok; auto|apply nmfs_okps; auto|rewrite G1; cbn [app]; rewrite <- app_assoc; reflexivity].
      + cbn [ev_atom]. destruct (good_str_value cs Hcs) as [v ->]. discriminate.
    - eapply by_fault; [exact HL|exact H|]. cbn [fault].
      replace (34 :: flat_map schar_text cs ++ 92 :: c :: r0) with ((34 :: flat_map schar_text cs ++ [92]) ++ c :: r0)
        by (cbn [app]; rewrite <- app_assoc; reflexivity). apply vf_escape; auto.
    - eapply by_fault; [exact HL|exact H|]. apply vf_open_str; auto. }
  destruct (N.eq_dec c 123) as [->|Nlb].
  { apply Deep; [cbn; auto|]. intros D. eapply by_disp; [exact IH|exact H|].
    change (dsp n ps (line_of P) (col_of P) d close 123) with (parse_obj fs L n (d + 1)).
    destruct n as [|n]; [exact I|]. rewrite parse_obj_S, shallow by auto. eapply eb_next_unwrap; [exact G|]. intros s1 G1.
    apply eb_assert; [reflexivity|]. apply eb_items_in; [|intros [ps' par'] s2; exact I].
    apply (IHs n (le_n _) (InItems [] None (d + 1) (Some c_rbrace)) x (P ++ [123]) R0 s1).
    split; [eapply spot_obj; eauto; eapply not_index; [exact Ft|cbn; auto]|]. split; [rewrite <- app_assoc; exact ET|]. split; [exact I|].
    split; [exact G1|]. split; [exact N|]. split; [apply okp_nil|auto]. }
  destruct (N.eq_dec c 91) as [->|Nlk].
  { apply Deep; [cbn; auto|]. intros D. eapply by_disp; [exact IH|exact H|].
    change (dsp n ps (line_of P) (col_of P) d close 91) with (parse_arr fs L n ps (d + 1)).
    destruct n as [|n]; [exact I|]. rewrite parse_arr_S, shallow by auto. eapply eb_next_unwrap; [exact G|]. intros s1 G1.
    apply eb_assert; [reflexivity|]. apply eb_bind; [|intros [vs t] s2 _; exact I].
    refine (IHs n (le_n _) (InArr ps (d + 1) []) x (P ++ [91]) R0 s1 _ TAny eq_refl).
    split; [eapply spot_arr; eauto; eapply not_index; [exact Ft|cbn; auto]|]. split; [rewrite <- app_assoc; exact ET|]. split; [exact I|].
    split; [exact G1|]. split; [exact N|]. split; [exact Nf|]. split; [constructor|discriminate]. }
  destruct (N.eq_dec c 40) as [->|Nlp].
  { apply Deep; [cbn; auto|]. intros D. eapply by_disp; [exact IH|exact H|].
    change (dsp n ps (line_of P) (col_of P) d close 40) with (parse_tup fs L n ps (d + 1)).
    destruct n as [|n]; [exact I|]. rewrite parse_tup_S, shallow by auto. eapply eb_next_unwrap; [exact G|]. intros s1 G1.
    apply eb_assert; [reflexivity|]. apply eb_bind; [|intros vs s2 _; exact I].
    refine (IHs n (le_n _) (InTup ps (d + 1) []) x (P ++ [40]) R0 s1 _).
    split; [eapply spot_tup; eauto; eapply not_index; [exact Ft|cbn; auto]|]. split; [rewrite <- app_assoc; exact ET|]. split; [exact I|].
    split; [exact G1|]. split; [exact N|]. split; [exact Nf|]. constructor. }
  destruct (N.eq_dec c 60) as [->|Nlt].
  { apply Deep; [cbn; auto 6|]. intros D. eapply by_disp; [exact IH|exact H|].
    change (dsp n ps (line_of P) (col_of P) d close 60) with (parse_include fs L n ps (d + 1)).
    assert (Ni : r <> Index) by (eapply not_index; [exact Ft|cbn; auto 12]).
    destruct n as [|n]; [exact I|]. rewrite parse_include_S, shallow by auto. eapply eb_next_unwrap; [exact G|]. intros s1 G1.
    apply eb_assert; [reflexivity|]. eapply eb_find; [exact G1| |].
    2:{ intros s2 B G2. cbn [negb]. eapply eb_line; [exact G2|reflexivity|]. ascg. eapply here_fault; [exact H|]. apply vf_inc_end; auto. }
    intros w c1 r1 s2 -> W Hc1 G2 _. cbn [negb]. eapply eb_getpos; [exact G2|]. apply eb_bind.
    { apply (IHs n (le_n _) (AtValue Whole ps (d + 1) (Some c_gt)) x ((P ++ [60]) ++ w) (c1 :: r1) s2). ascg.
      split; [eapply spot_inc; eauto|]. split; [ascg; exact ET|]. split; [exists c1, r1; auto|]. asc G2. auto. }
    intros v s3 E. destruct (val_full _ _ _ HL _ _ _ _ _ _ _ _ _ _ _ _ E G2 N Nf) as (e & t & R' & x' & ER & He & Fb & Ev & G3 & N3 & Nv).
    rewrite ER in H, ET. eapply eb_token; [exact G3| |].
    { intros Nw. ascg. eapply here_fault; [exact H|]. eapply vf_inc_word; eauto using folb_complete. }
    intros [k|[]] s4 x'' Tk G4 Gl.
    - unfold tok_ev in Tk. destruct v as [|b|z|q|f|ar|tu|o]; try discriminate Tk. unfold ebind in Tk.
      destruct (ev_keyword o [IObj; IStr; IArr; ITup] x') as [[[kk|] y]|] eqn:Kw; try discriminate. injection Tk as -> ->.
      apply eb_inc_code. destruct (after_value x0 _ _ Fb) as [B|[(w' & c2 & r2 & -> & W' & Nw' & Hc2)|(c2 & r2 & -> & De & Ec2)]].
      + unfold inc_codeL. eapply eb_blank; [exact B|exact G4|]. intros s5 G5. cbn [negb]. eapply eb_line; [exact G5|reflexivity|]. ascg.
        eapply here_fault; [exact H|]. eapply vf_inc_open; eauto. exists k, x''. exact Kw.
      + refine (go_on fs file L root x0 T n (InInc ps (d + 1) k) x'' (((P ++ [60]) ++ w) ++ t) w' c2 r2 s4 (IHs n (le_n _)) I _ _ G4 _ _ W' Hc2).
        * ascg. eapply spot_inc_key; eauto.
        * ascg. exact ET.
        * rewrite Gl. exact N3.
        * exact Nf.
      + injection Ec2 as ->. unfold inc_codeL. eapply eb_stay; [|exact G4|]; [reflexivity|]. cbn [negb]. eapply eb_getpos; [exact G4|].
        apply eb_bind; [|intros v' s5 E5; exfalso].
        * destruct n as [|n]; [exact I|]. rewrite parse_value_S. eapply eb_peek_unwrap; [exact G4|]. apply eb_bind.
          -- change (eb (dsp n ps (line_of (((P ++ [60]) ++ w) ++ t)) (col_of (((P ++ [60]) ++ w) ++ t)) (d + 1) (Some c_gt) 62) s4).
             rewrite not_starts by (exact no_gt). cbn [N.eqb Pos.eqb]. apply eb_failed; [eapply good_file; exact G4|]. ascg.
             eapply here_fault; [exact H|]. eapply vf_inc_bare; eauto. exists k, x''. exact Kw.
          -- intros v' s5 E5. change (dsp n ps (line_of (((P ++ [60]) ++ w) ++ t)) (col_of (((P ++ [60]) ++ w) ++ t)) (d + 1) (Some c_gt) 62 s4 = (Ok v', s5)) in E5.
             rewrite not_starts in E5 by (exact no_gt). discriminate E5.
        * destruct n as [|n]; [discriminate E5|]. rewrite parse_value_S in E5. unfold bind at 1 in E5.
          assert (Pk : peek_unwrap s4 = (Ok 62, s4)) by (unfold peek_unwrap, bind, peek; destruct G4 as (-> & _); reflexivity).
          rewrite Pk in E5.
          match type of E5 with bind ?m _ _ = _ => change m with (dsp n ps (line_of (((P ++ [60]) ++ w) ++ t)) (col_of (((P ++ [60]) ++ w) ++ t)) (d + 1) (Some c_gt) 62) in E5 end.
          rewrite not_starts in E5 by (exact no_gt). discriminate E5.
    - unfold tok_ev in Tk. destruct v as [|b|z|q|f|ar|tu|o]; try discriminate Tk.
      2:{ unfold ebind in Tk. destruct (ev_keyword o [IObj; IStr; IArr; ITup] x') as [[[kk|] y]|] eqn:Kw; discriminate. }
      injection Tk as <-. apply eb_retb.
      change (eb (inc_tailL fs L IObj (VStr f) (line_of ((P ++ [60]) ++ w)) (col_of ((P ++ [60]) ++ w))) s4).
      eapply eb_tail; [exact G4|exact Fb| | |].
      + intros B. ascg. eapply here_fault; [exact H|]. eapply vf_inc_open; eauto. exact I.
      + intros w' c2 r2 -> W' Nw' Hc2 Nc2. ascg. eapply here_fault; [exact H|]. eapply vf_inc_close; eauto.
      + intros w' r2 s5 -> W' G5. eapply eb_finish; [exact G5| | |]; ascg.
        * intros Hn. eapply here_fault; [exact H|]. eapply vf_inc_path; eauto.
        * intros Hn. eapply here_fault; [exact H|]. eapply vf_inc_cycle; eauto.
        * intros full e1 Ff Wf El. right. exists IObj, f, x', full. split; [|auto].
          eapply asks_plain; [exact S|exact Ni|exact D|exact W|exact He|exact W'|exact Ev|exact ET]. }
  assert (Sign : forall op, c = unop_text op -> done (Datatypes.S n) (AtValue r ps d close) P s).
  { intros op ->. assert (Ni : r <> Index) by (eapply not_index; [exact Ft|destruct op; cbn; auto 12]).
    destruct R0 as [|c1 R0].
    { eapply by_fault; [exact HL|exact H|]. apply vf_sign_end. }
    eapply by_disp; [exact IH|exact H|].
    replace (dsp n ps (line_of P) (col_of P) d close (unop_text op)) with (parse_unary_op fs L n ps d close op) by (destruct op; reflexivity).
    destruct n as [|n]; [exact I|]. rewrite parse_unary_op_S. eapply eb_next; [exact G|]. intros s1 G1.
    apply eb_assert; [destruct op; reflexivity|]. eapply eb_getpos; [exact G1|]. eapply eb_peek; [exact G1|]. apply eb_bind.
    - apply (IHs n (le_n _) (AtValue Operand ps (d + 1) close) x (P ++ [unop_text op]) (c1 :: R0) s1).
      split; [eapply spot_sign; eauto|]. split; [rewrite <- app_assoc; exact ET|]. split; [discriminate|]. split; [exact G1|]. auto.
    - intros v s2 E. destruct (val_atom _ _ _ HL _ _ _ _ _ _ _ _ _ _ _ _ E G1 N Nf) as (a & t & R' & x' & ER & Ha & Fb & _ & Ev & G2 & N2 & Nv).
      destruct (numeric v) eqn:Nu.
      + destruct v; try discriminate Nu; destruct op; exact I.
      + eapply eb_mb; [eapply mb_unary_err; [exact G2|exact Nu]|]. rewrite ER in H. eapply here_fault; [exact H|]. eapply vf_sign; eauto. }
  destruct (N.eq_dec c 43) as [->|Npl]; [apply (Sign UPlus); reflexivity|].
  destruct (N.eq_dec c 45) as [->|Nmi]; [apply (Sign UMinus); reflexivity|].
  destruct (is_numeric_char c) eqn:Nc.
  { destruct (num_split R0 [c] (num_first c Nc)) as (w & r0 & E & Hw & [Hr|(c1 & r1 & -> & Ve & Nn)]); cbn [app] in E.
    - destruct (digits w) as [|z dg] eqn:Dg.
      + eapply by_fault; [exact HL|exact H|]. rewrite E. apply vf_num; auto.
      + eapply by_disp; [exact IH|exact H|].
        destruct (num_head w (proj1 Hw)) as (c1 & r1 & Ew & Hc1). pose proof E as E'. rewrite Ew in E'. cbn [app] in E'. injection E' as -> ->.
        rewrite disp_num by exact Hc1.
        rewrite <- (disp_num fs li n ps (line_of P) (col_of P) d close c1 Hc1).
        eapply (eb_agr okv idp) with (R := r0); [|exact G|].
        * pose proof G as (G1 & _ & G3 & G4 & _).
          apply (disp_closed fs file n (ANum w) w d ps (line_of P) (col_of P) close r0 s c1 r1);
            auto; [constructor; apply (proj1 Hw)|apply nmfs_okps; auto|rewrite G1; exact E].
        * cbn [ev_atom]. destruct (num_ok_value w Hw) as [v ->]; [congruence|]. discriminate.
    - eapply by_fault; [exact HL|exact H|]. rewrite E. apply vf_num_char; auto. }
  destruct (is_valid_field_char c true || (c =? 64)) eqn:Vc.
  { destruct (N.eq_dec c 94) as [->|N94].
    { eapply by_fault; [exact HL|exact H|]. apply vf_char. intros [Hl|[Hn|Hn]]; [apply letter_lod, lod_range in Hl; lia|discriminate|].
      cbn in Hn. repeat destruct Hn as [Hn|Hn]; try discriminate; contradiction. }
    assert (Hc : letter c \/ c = c_at).
    { apply orb_true_iff in Vc as [V|V]; [apply valid_first in V as [V|V]; [auto|contradiction]|right; apply N.eqb_eq; exact V]. }
    eapply by_disp; [exact IH|exact H|].
    replace (dsp n ps (line_of P) (col_of P) d close c) with (parse_variable fs L n ps (line_of P) (col_of P) d close)
      by (symmetry; destruct Hc as [Hc| ->]; [apply disp_var; auto|apply disp_at]).
    apply (IH n (Nat.lt_succ_diag_r n) (AtName false ps d close) x P (c :: R0) s).
    split; [eapply spot_name; exact S|]. split; [exact ET|]. split; [exists c, R0; auto|]. auto. }
  eapply by_fault; [exact HL|exact H|]. apply vf_char. apply orb_false_iff in Vc as [V1 V2]. apply N.eqb_neq in V2.
  intros [Hl|[Hn|Hn]]; [|congruence|].
  - assert (is_valid_field_char c true = true) by (apply valid_first; left; exact Hl). congruence.
  - cbn in Hn. repeat destruct Hn as [Hn|Hn]; congruence.
Qed.
End Atom.
