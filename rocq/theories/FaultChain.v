(** * FaultChain: completeness of the faults between the operands of a value. *)
From Verif Require Export FaultName.
From Coq Require String.
Import String.StringSyntax.
Open Scope N_scope.

Section Chain.
Context `{U : Unicode}.
Variable fs : fsys.
Variable file : option str.
Notation li := (load_file fs (inc_fuel fs)).
Notation inc := (include_meaning fs file).
Notation EA := (ev_atom inc limit64).
Notation EE := (ev_expr inc limit64).
Notation good := (good file).
Notation er k := (mkperr file k).
Local Existing Instance noexc.
Variable L : inc_ty -> str -> shared -> outcome value * shared.
Hypothesis HL : forall ty p sh, fst (L ty p sh) = NoFuel \/ li ty p sh = L ty p sh.
Variable root : inc_ty.
Variable x0 : est.
Variable T : str.
Notation spot := (spot fs file root x0).
Notation blamed := (blamed fs file L root x0 T).
Notation eb := (eb fs file L root x0 T).
Notation here := (here fs file root x0 T).
Notation done := (done fs file L root x0 T).
Notation alldone := (alldone fs file L root x0 T).

Lemma eb_low P R terms : forall acc cur pre x s, okv cur -> Forall okv (map (fun t => fst (fst t)) terms) -> okv (fst acc) ->
  (forall k, sum_fault (Some acc) terms cur pre x = Some k -> blamed (er k)) -> good P R x s ->
  eb (eval_low_ops (fst acc) (chain_vals terms cur pre) (snd acc :: map snd terms)) s.
Proof.
  induction terms as [|[[v p] op'] terms IH]; intros [a op] cur pre x s Vc Vt Va H G; cbn [sum_fault fst snd] in *.
  - unfold chain_vals. cbn [map app at_pre eval_low_ops fst snd].
    destruct (ev_op op a cur x) as [[r x']|] eqn:E.
    + apply eb_bind.
      * pose proof G as (RS & X & _ & K & _). pose proof (@binary_agr U noexc s a cur op (line_of pre) (col_of pre) K Va Vc) as Ag.
        unfold agr in Ag. unfold FaultDone.eb. destruct (binary_op_on_values _ _ _ _ _ s) as [[?|?| |] ?]; auto.
        destruct Ag as [[]|Ag]. rewrite X in Ag. congruence.
      * intros; apply eb_ret.
    + apply eb_bind; [|intros; apply eb_ret]. eapply eb_mb; [eapply mb_binop; eauto|]. apply H. reflexivity.
  - change (chain_vals ((v, p, op') :: terms) cur pre) with ((v, line_of p, col_of p) :: chain_vals terms cur pre).
    inversion Vt as [|? ? Vv Vt']; subst. cbn [map fst snd] in *. cbn [eval_low_ops snd].
    destruct (ev_op op a v x) as [[s' x']|] eqn:E.
    + assert (G0 : good P ([] ++ R) x s) by exact G. pose proof G as (RS & X & _ & K & _).
      pose proof (@binary_agr U noexc s a v op (line_of p) (col_of p) K Va Vv) as Ag.
      apply eb_bind.
      * unfold agr in Ag. unfold FaultDone.eb. destruct (binary_op_on_values _ _ _ _ _ s) as [[?|?| |] ?]; auto.
        destruct Ag as [[]|Ag]. rewrite X in Ag. congruence.
      * intros b s1 Eb. rewrite RS in Ag.
        destruct (agr_good _ _ _ _ _ _ _ _ _ _ _ _ Ag G0 (keeps_binop _ _ _ _ _ _) Eb) as (x'' & Ev & G1 & Vb).
        rewrite app_nil_r in G1. rewrite E in Ev. injection Ev as -> ->. exact (IH (b, op') cur pre x'' s1 Vc Vt' Vb H G1).
    + apply eb_bind. { eapply eb_mb; [eapply mb_binop; eauto|]. apply H. reflexivity. }
      intros b s1 Eb. pose proof G as (RS & X & _ & K & _).
      pose proof (@binary_agr U noexc s a v op (line_of p) (col_of p) K Va Vv) as Ag. unfold agr in Ag. rewrite Eb, X in Ag.
      destruct Ag as [Ag _]. congruence.
Qed.
Lemma done_chain n ps d close cl terms cur pre x P R s : (forall m, (m < n)%nat -> alldone m) ->
  here (InChain ps d close cl terms cur pre) x P R s -> done n (InChain ps d close cl terms cur pre) P s.
Proof.
  intros IH H. pose proof (here_good _ _ _ _ _ _ _ _ _ _ H) as G.
  pose proof H as (S & ET & Ft & _ & N & Nf & Nt & Nc). cbn [Spot.fits] in Ft.
  pose proof (nmv_okv _ Nc) as Kc.
  assert (Kt : Forall okv (map (fun t => fst (fst t)) terms)) by (eapply Forall_impl; [|exact Nt]; apply nmv_okv).
  destruct n as [|n0]; [exact I|].
  assert (Stop : complete close R -> match R with [] => True | c :: _ => get_op c = None end -> done (Datatypes.S n0) (InChain ps d close cl terms cur pre) P s).
  { intros F Ng. cbn [FaultDone.done]. unfold chain_codeL. rewrite parse_ops_S. apply eb_assoc.
    assert (Fb := F). apply complete_folb in Fb.
    assert (Low : eb (let* _ := check_value_end close in low_code (chain_vals terms cur pre, map snd terms)) s).
    { eapply eb_ok; [eapply check_end_ok; [exact Fb|apply G]|]. unfold low_code. cbn [fst snd].
      destruct terms as [|[[v p] op'] terms]; [apply eb_ret|].
      change (chain_vals ((v, p, op') :: terms) cur pre) with ((v, line_of p, col_of p) :: chain_vals terms cur pre). cbv iota beta.
      pose proof (Forall_inv Kt) as Vv. pose proof (Forall_inv_tail Kt) as Vt'. cbn [map fst snd] in Vv, Vt'.
      apply (eb_low P R terms (v, op') cur pre x s Kc Vt' Vv); [|exact G].
      intros k Hk. eapply here_fault; [exact H|]. apply cf_sum; auto. }
    destruct R as [|c R].
    - eapply eb_peek_nil; [exact G|]. apply eb_retb. exact Low.
    - eapply eb_peek; [exact G|]. rewrite Ng. apply eb_retb. exact Low. }
  destruct R as [|c R]; [apply Stop; [left; reflexivity|exact I]|].
  destruct (is_value_end_char c) eqn:Ve.
  2:{ eapply by_fault; [exact HL|exact H|]. apply cf_char; auto. }
  destruct (get_op c) as [op|] eqn:Eo.
  2:{ assert (No : is_op c = false).
      { revert Eo. unfold get_op, is_op. destruct (c =? 43), (c =? 45), (c =? 42), (c =? 47), (c =? 37); discriminate || reflexivity. }
      unfold is_value_end_char in Ve. rewrite No, orb_false_r in Ve. destruct (is_end_delimiter c) eqn:Ed.
      - destruct (opt_char_eqb (Some c) close) eqn:Ec.
        + assert (Some c = close) by (destruct close; [apply N.eqb_eq in Ec; congruence|discriminate]).
          apply Stop; auto. right. exists c, R. auto.
        + eapply by_fault; [exact HL|exact H|]. apply cf_bracket; auto. intros E. subst close. cbn in Ec. rewrite N.eqb_refl in Ec. discriminate.
      - apply Stop; auto. right. exists c, R. split; auto. left. destruct (is_whitespace c); auto. }
  apply get_op_text in Eo as ->. clear Stop.
  destruct R as [|c R]; [eapply by_fault; [exact HL|exact H|]; apply cf_end|].
  cbn [FaultDone.done]. unfold chain_codeL. rewrite parse_ops_S. apply eb_assoc. eapply eb_peek; [exact G|].
  rewrite op_text_op. apply eb_assoc. eapply eb_next; [exact G|]. intros s1 G1. apply eb_assoc. eapply eb_peek; [exact G1|].
  apply eb_assoc. eapply eb_getpos; [exact G1|]. apply eb_assoc. set (P' := P ++ [op_text op]) in *.
  apply eb_bind.
  { apply (IH n0 (Nat.lt_succ_diag_r n0) (AtValue Operand ps d close) x P' (c :: R) s1).
    split; [eapply spot_operand; exact S|]. split; [unfold P'; ascg; exact ET|]. split; [discriminate|]. auto. }
  intros v s2 E2.
  destruct (val_atom _ _ _ HL _ _ _ _ _ _ _ _ _ _ _ _ E2 G1 N Nf) as (a & t & R' & x' & ER & Ha & Fb & _ & Ev & G2 & N2 & Nv).
  assert (PB : pop_back (chain_vals terms cur pre) = Some (map at_pre (map fst terms), (cur, line_of pre, col_of pre))).
  { unfold chain_vals. rewrite map_app. apply pop_back_app. }
  rewrite PB. pose proof (nmv_okv _ Nv) as Kv.
  assert (ET' : T = (P ++ op_text op :: t) ++ R') by (rewrite ET, ER; ascg; reflexivity).
  assert (G2' : good (P ++ op_text op :: t) R' x' s2) by (unfold P' in G2; rewrite <- app_assoc in G2; exact G2).
  destruct (is_priority op) eqn:Pr.
  - destruct (op_value op cur v) as [p|] eqn:Op.
    + assert (G0 : good (P ++ op_text op :: t) ([] ++ R') x' s2) by exact G2'. pose proof G2' as (RS & X & _ & K & _).
      pose proof (binary_prio_agr s2 cur v op (line_of P') (col_of P') Pr K Kc Kv) as Ag. apply eb_assoc. apply eb_bind.
      * unfold agr in Ag. unfold FaultDone.eb. destruct (binary_op_on_values _ _ _ _ _ s2) as [[?|?| |] ?]; auto.
        destruct Ag as [[]|Ag]. rewrite Op in Ag. discriminate.
      * intros b s3 Eb. rewrite RS in Ag. 
        destruct (agr_good _ _ _ _ _ _ _ _ _ _ _ _ Ag G0 (keeps_binop _ _ _ _ _ _) Eb) as (x'' & Ev' & G3 & Vb).
        rewrite app_nil_r in G3. rewrite Op in Ev'. injection Ev' as -> ->.
        pose proof (IH n0 (Nat.lt_succ_diag_r n0) (InChain ps d close (closed_atom a) terms b pre) x'' (P ++ op_text op :: t) R' s3) as D.
        cbn [FaultDone.done] in D. unfold chain_codeL, chain_vals in D. rewrite map_app in D. apply D. clear D.
        split; [eapply spot_factor; eauto|]. split; [exact ET'|]. split; [cbn [Spot.fits]; tauto|]. split; [exact G3|]. split; [exact N2|].
        cbn [nmplace]. split; [exact Nf|]. split; [exact Nt|].
        pose proof (binary_pc cur v op (line_of P') (col_of P') s2 (good_inv _ _ _ _ _ G2' N2) Nc Nv) as Pc. unfold pc in Pc. rewrite Eb in Pc. apply Pc.
    + apply eb_assoc. rewrite ER in H. apply eb_bind.
      * eapply eb_mb; [eapply mb_binop; [exact G2|exact Kc|exact Kv|]|eapply here_fault; [exact H|eapply cf_factor; eauto]].
        unfold ev_op. rewrite Op. destruct op; try discriminate Pr; reflexivity.
      * intros b s3 Eb. pose proof G2' as (RS & X & _ & K & _).
        pose proof (binary_prio_agr s2 cur v op (line_of P') (col_of P') Pr K Kc Kv) as Ag. unfold agr in Ag. rewrite Eb, Op in Ag.
        destruct Ag as [Ag _]. discriminate.
  - rewrite <- (chain_vals_snoc terms cur pre op v P').
    replace (map snd terms ++ [op]) with (map snd (terms ++ [(cur, pre, op)])) by (rewrite map_app; reflexivity).
    refine (IH n0 (Nat.lt_succ_diag_r n0) (InChain ps d close (closed_atom a) (terms ++ [(cur, pre, op)]) v P') x' (P ++ op_text op :: t) R' s2 _).
    split; [eapply spot_term; eauto|]. split; [exact ET'|]. split; [cbn [Spot.fits]; tauto|]. split; [exact G2'|]. split; [exact N2|].
    cbn [nmplace]. split; [exact Nf|]. split; [|exact Nv]. rewrite map_app. apply Forall_app. split; [exact Nt|]. constructor; auto.
Qed.
End Chain.
