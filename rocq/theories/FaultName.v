(** * FaultName: completeness of the faults of names and dots. *)
From Verif Require Export FaultAtom.
From Coq Require String.
Import String.StringSyntax.
Open Scope N_scope.

Section Name.
Context `{U : Unicode}.
Variable fs : fsys.
Variable file : option str.
Notation li := (load_file fs (inc_fuel fs)).
Notation inc := (include_meaning fs file).
Notation EA := (ev_atom inc limit64).
Notation EE := (ev_expr inc limit64).
Notation good := (good file).
Notation er k := (mkperr file k).
Local Existing Instance noexc.
Variable L : inc_ty -> str -> shared -> outcome value * shared.
Hypothesis HL : forall ty p sh, fst (L ty p sh) = NoFuel \/ li ty p sh = L ty p sh.
Variable root : inc_ty.
Variable x0 : est.
Variable T : str.
Notation spot := (spot fs file root x0).
Notation blamed := (blamed fs file L root x0 T).
Notation eb := (eb fs file L root x0 T).
Notation here := (here fs file root x0 T).
Notation done := (done fs file L root x0 T).
Notation alldone := (alldone fs file L root x0 T).

Lemma eb_lookup {C} glob n P R x s ps l k (f : value -> M C) : Forall letter_or_digit n -> good P R x s -> nmps (fst x) -> nmfs ps ->
  (glob = true -> n = [] -> blamed (er (InvalidValue [c_at] l k))) ->
  (glob = true -> n <> [] -> assoc (c_at :: n) (fst x) = None -> blamed (er (GlobalNotFound (c_at :: n) l k))) ->
  (glob = false -> assoc n constants = None -> assoc n keywords = None -> assoc n ps = None -> blamed (er (VariableNotFound n l k))) ->
  (forall v x' s', var_name glob n -> ev_name ps glob n x = Some (v, x') -> good P R x' s' -> nmv v -> nmps (fst x') -> eb (f v) s') ->
  eb (bind (lookup_variable ps (with_at glob n) glob l k) f) s.
Proof.
  intros Hn G N Nf H1 H2 H3 H4. pose proof (good_file _ _ _ _ _ G) as F. apply eb_bind.
  - unfold lookup_variable. destruct glob; cbn [with_at].
    + rewrite !lit_not_at by (cbn; discriminate). destruct n as [|c n].
      * change (str_eqb [64] (lit "@")) with true. cbv iota. apply eb_failed; auto.
      * replace (str_eqb (64 :: c :: n) (lit "@")) with false by (symmetry; apply str_eqb_neq; discriminate).
        eapply eb_ok; [reflexivity|]. destruct (assoc (64 :: c :: n) (s_globals s)) as [v|] eqn:A; [apply eb_ret|].
        apply eb_failed; [exact F|]. apply H2; [reflexivity|discriminate|]. destruct G as (_ & <- & _). exact A.
    + assert (Sn : forall k, eb (let* o := sentinel k in ret (VObj o)) s).
      { intros t. unfold FaultDone.eb, bind, sentinel. destruct (g_sent _ t); exact I. }
      specialize (H3 eq_refl). unfold constants, keywords in H3. cbn [assoc] in H3. rewrite !(str_eqb_sym _ n) in H3.
      destruct (str_eqb n (lit "null")); [apply eb_ret|]. destruct (str_eqb n (lit "true")); [apply eb_ret|].
      destruct (str_eqb n (lit "false")); [apply eb_ret|].
      destruct (str_eqb n (lit "Obj")); [apply Sn|]. destruct (str_eqb n (lit "Str")); [apply Sn|].
      destruct (str_eqb n (lit "Arr")); [apply Sn|]. destruct (str_eqb n (lit "Tup")); [apply Sn|].
      replace (str_eqb n (lit "@")) with false.
      2:{ symmetry. apply str_eqb_neq. intros ->. inversion Hn as [|? ? Hc _]; subst. apply lod_range in Hc. lia. }
      destruct (assoc n ps); [apply eb_ret|]. apply eb_failed; auto.
  - intros v s' E. pose proof (lookup_pc ps (with_at glob n) glob l k s (good_inv _ _ _ _ _ G N) Nf) as Pc.
    lapply Pc; [clear Pc; intros Pc|intros ->; exists n; reflexivity]. unfold pc in Pc. rewrite E in Pc. destruct Pc as ((I' & Nv & Rs) & P1 & P2).
    assert (Vn : var_name glob n).
    { destruct glob; [|apply P2; reflexivity]. specialize (P1 eq_refl). destruct n as [|c n]; [exfalso; apply P1; reflexivity|].
      inversion Hn; subst. exists c, n. auto. }
    assert (G0 : good P ([] ++ R) x s) by exact G.
    pose proof G as (RS & _ & _ & K & _).
    assert (Ag : agr okv idp (lookup_variable ps (with_at glob n) glob l k) (ev_name ps glob n) R s).
    { rewrite <- RS. replace (with_at glob n) with ((if glob then [64] else []) ++ n) by (destruct glob; reflexivity).
      apply (lookup_agr s ps glob n l k Vn K (nmfs_okps _ Nf)). }
    destruct (agr_good _ _ _ _ _ _ _ _ _ _ _ _ Ag G0 (keeps_lookup _ _ _ _ _ _) E) as (x' & Ev & G' & _). rewrite app_nil_r in G'.
    eapply H4; eauto. eapply inv_nm; eauto.
Qed.
Lemma dot_sub_open a : dot_sub a -> closed_atom a = false.
Proof. destruct a; try contradiction; reflexivity. Qed.
Lemma done_name n dot ps d close x P R s : (forall m, (m < n)%nat -> alldone m) -> here (AtName dot ps d close) x P R s ->
  done n (AtName dot ps d close) P s.
Proof.
  intros IH H. destruct n as [|n0]; [exact I|]. pose proof (here_good _ _ _ _ _ _ _ _ _ _ H) as G.
  pose proof H as (S & ET & Ft & _ & N & Nf). cbn [nmplace] in Nf.
  assert (HR : exists glob n r, R = with_at glob n ++ r /\ dot && glob = false /\ Forall letter_or_digit n /\ R <> [] /\
    (glob = false -> hd_error R <> Some 64) /\ match r with [] => True | c :: _ => ~ letter_or_digit c end).
  { destruct dot.
    - destruct Ft as (c & R0 & -> & Hc). destruct (lod_split (c :: R0)) as (n & r & E & Hn & Hr). exists false, n, r. rewrite E at 1.
      split; [reflexivity|]. split; [reflexivity|]. split; [exact Hn|]. split; [discriminate|]. split; [|exact Hr].
      intros _ Ec. injection Ec as ->. apply after_dot_solid in Hc. destruct Hc as (_ & _ & Hc). congruence.
    - destruct Ft as (c & R0 & -> & Hc). destruct (N.eq_dec c 64) as [->|Nc].
      + destruct (lod_split R0) as (n & r & -> & Hn & Hr). exists true, n, r. repeat split; auto; discriminate.
      + destruct (lod_split (c :: R0)) as (n & r & E & Hn & Hr). exists false, n, r. rewrite E at 1. repeat split; auto; [discriminate|].
        intros _ Ec. injection Ec as ->. congruence. }
  destruct HR as (glob & n & r & -> & Dg & Hn & Ne & Na & Hr).
  assert (Look : forall {C} (f : value -> M C) P' s1, name_done r -> good P' (skipn (length P' - length P - length (with_at glob n)) r) x s1 ->
    (forall v x' s', var_name glob n -> ev_name ps glob n x = Some (v, x') -> good P' (skipn (length P' - length P - length (with_at glob n)) r) x' s' -> nmv v -> nmps (fst x') -> eb (f v) s') ->
    eb (bind (lookup_variable ps (with_at glob n) glob (line_of P) (col_of P)) f) s1).
  { intros C f P' s1 Nd G1 H1. eapply eb_lookup; [exact Hn|exact G1|exact N|exact Nf| | | |exact H1].
    - intros -> ->. eapply here_fault; [exact H|]. apply mf_lone_at; auto. destruct dot; auto; discriminate.
    - intros -> Nn A. eapply here_fault; [exact H|]. apply mf_global; auto. destruct dot; auto; discriminate.
    - intros -> A1 A2 A3. eapply here_fault; [exact H|]. apply mf_variable; auto. }
  assert (Hend : ended r -> done (Datatypes.S n0) (AtName dot ps d close) P s).
  { intros F. cbn [FaultDone.done]. eapply eb_at; [apply parse_variable_fb|]. unfold var_back.
    destruct (good_front_end file glob n r P x s Hn F) as (s1 & E1 & G1); [exact Ne|exact G|].
    eapply eb_ok; [exact E1|]. cbv beta iota. apply eb_retb. cbv beta iota.
    eapply (Look _ _ (P ++ with_at glob n)); [left; exact F| |].
    - rewrite app_length. replace (_ - _ - _)%nat with 0%nat by lia. exact G1.
    - intros; apply eb_ret. }
  destruct r as [|c r]; [apply Hend; left; reflexivity|].
  destruct (is_value_end_char c) eqn:Ve; [apply Hend; right; exists c, r; auto|]. clear Hend.
  destruct (N.eq_dec c 46) as [->|Nd].
  2:{ eapply by_fault; [exact HL|exact H|]. apply mf_char; auto. destruct glob; [left; discriminate|]. cbn [with_at] in *.
      destruct n; [|left; discriminate]. right. intros ->. apply Na; reflexivity. }
  destruct r as [|c r]. { eapply by_fault; [exact HL|exact H|]. apply mf_dot_end; auto. }
  assert (Hc : {after_dot c \/ c = c_at} + {~ after_dot c /\ c <> c_at}).
  { destruct (N.eq_dec c 64) as [->|Nc]; [left; right; reflexivity|].
    destruct (is_valid_field_char c true || is_numeric_char c) eqn:V; [left; left; apply after_dot_iff; exact V|].
    right. split; [|exact Nc]. intros A. apply after_dot_iff in A. congruence. }
  destruct Hc as [Hc|[Hc1 Hc2]]. 2:{ eapply by_fault; [exact HL|exact H|]. apply mf_dot_char; auto. }
  cbn [FaultDone.done]. eapply eb_at; [apply parse_variable_fb|].
  destruct (good_front_dot _ _ _ _ _ _ _ Hn G) as (s1 & E1 & G1).
  eapply eb_ok; [exact E1|]. unfold var_back. cbv beta iota. apply eb_assoc. eapply eb_peek; [exact G1|].
  assert (X : forall b, b = (c =? 64) -> eb (
    let* value := lookup_variable ps (with_at glob n) glob (line_of P) (col_of P) in
    match value with
        | VArr a =>
            let* '(line, col) := getpos in
            let* idx := parse_value fs L n0 ps line col (d + 1) close false in
            index_by (arr_get a) idx line col
        | VTup t =>
            let* '(line, col) := getpos in
            let* idx := parse_value fs L n0 ps line col (d + 1) close false in
            index_by (tup_get t) idx line col
        | VObj o =>
            let* '(line, col) := getpos in
            if (b : bool) then fail (InvalidValueChar c_at line col)
            else parse_variable fs L n0 (obj_pairs o) line col (d + 1) close
        | _ => fail (InvalidDot (get_type value) (line_of P) (col_of P))
        end) s1).
  { intros b ->. eapply (Look _ _ (P ++ with_at glob n ++ [46])).
    { right. exists c, r. auto. }
    { rewrite !app_length. replace (_ - _ - _)%nat with 1%nat by (cbn [length]; lia). exact G1. }
    rewrite !app_length. replace (_ - _ - _)%nat with 1%nat by (cbn [length]; lia). cbn [skipn].
    intros v x' s2 Vn Ev G2 Nv N2. set (P' := P ++ with_at glob n ++ [46]) in *.
    assert (HI : match v with VArr _ | VTup _ => True | _ => False end -> eb (
      let* idx := parse_value fs L n0 ps (line_of P') (col_of P') (d + 1) close false in
      index_by (fun j => match v with VArr a => arr_get a j | VTup t => tup_get t j | _ => OOk VNull end) idx (line_of P') (col_of P')) s2).
    { intros Hv. apply eb_bind.
      { apply (IH n0 (Nat.lt_succ_diag_r n0) (AtValue Index ps (d + 1) close) x' P' (c :: r) s2).
        split; [eapply spot_index; eauto|]. split; [unfold P'; ascg; exact ET|]. split; [exists c, r; auto|]. auto. }
      intros i s3 E3. destruct (val_atom _ _ _ HL _ _ _ _ _ _ _ _ _ _ _ _ E3 G2 N2 Nf) as (a & t & R' & x'' & ER & Ha & Fb & Ds & Ei & G3 & N3 & Ni).
      assert (Da : dot_sub a).
      { apply (Ds c r eq_refl). unfold dot_start. destruct Hc as [Hc| ->]; [|auto]. apply after_dot_iff, orb_true_iff in Hc. tauto. }
      assert (F' : ended R') by (destruct Fb as [Fb|Fb]; [exact Fb|rewrite (dot_sub_open a Da) in Fb; discriminate]).
      assert (El : elements v <> None) by (destruct v; try contradiction; discriminate).
      rewrite ER in H. unfold index_by. destruct i as [|b|i|q|f|ar|tu|o];
        try (apply eb_failed; [eapply good_file; exact G3|]; eapply here_fault; [exact H|]; unfold P'; eapply mf_index_type; eauto; discriminate).
      unfold to_usize. destruct ((0 <=? i)%Z && (i <=? 18446744073709551615)%Z) eqn:Rg.
      - apply andb_true_iff in Rg as [R1 R2]. apply Z.leb_le in R1, R2.
        assert (Hvs : exists vs, elements v = Some vs) by (destruct v; try contradiction; eexists; reflexivity). destruct Hvs as [vs Evs].
        destruct (Z.le_gt_cases (Z.of_nat (length vs)) i) as [Lv|Lv].
        + rewrite (get_out_of_bounds v vs) by (auto; lia). eapply eb_ok; [reflexivity|].
          unfold FaultDone.eb, raise. rewrite (good_file _ _ _ _ _ G3).
          eapply (here_fault fs file L root x0 T _ _ _ _ _ (data_fault (out_of_bounds v (Z.to_N i)) P')); [exact H|]. unfold P'. eapply mf_index_bounds; eauto.
          change (2 ^ 64)%Z with 18446744073709551616%Z. lia.
        + assert (Ig : exists u, match v with VArr a => arr_get a (Z.to_N i) | VTup t => tup_get t (Z.to_N i) | _ => OOk VNull end = OOk u).
          { destruct v; try discriminate Evs; injection Evs as <-.
            - unfold arr_get, arr_len. destruct (N.leb_spec (N.of_nat (length (arr_values a0))) (Z.to_N i)); [lia|destruct (nth_error (arr_values a0) (N.to_nat (Z.to_N i))) eqn:Nt; [eexists; reflexivity|apply nth_error_None in Nt; lia]].
            - unfold tup_get, tup_len. destruct (N.leb_spec (N.of_nat (length (tup_values t0))) (Z.to_N i)); [lia|destruct (nth_error (tup_values t0) (N.to_nat (Z.to_N i))) eqn:Nt; [eexists; reflexivity|apply nth_error_None in Nt; lia]]. }
          destruct Ig as [u ->]. apply eb_ret.
      - apply eb_failed; [eapply good_file; exact G3|]. eapply here_fault; [exact H|]. unfold P'. eapply mf_index; eauto.
        apply andb_false_iff in Rg. rewrite !Z.leb_gt in Rg. change (2 ^ 64)%Z with 18446744073709551616%Z. lia. }
    destruct v as [|b|z|q|f|ar|tu|o];
      try (apply eb_failed; [eapply good_file; exact G2|]; eapply here_fault; [exact H|]; eapply mf_dot; eauto; fail).
    - eapply eb_getpos; [exact G2|]. exact (HI I).
    - eapply eb_getpos; [exact G2|]. exact (HI I).
    - eapply eb_getpos; [exact G2|]. destruct (N.eqb_spec c 64) as [->|Nc].
      + apply eb_failed; [eapply good_file; exact G2|]. eapply here_fault; [exact H|]. unfold P'. eapply mf_dot_global; eauto.
      + apply (IH n0 (Nat.lt_succ_diag_r n0) (AtName true (obj_pairs o) (d + 1) close) x' P' (c :: r) s2).
        split; [eapply spot_member; eauto|]. split; [unfold P'; ascg; exact ET|].
        split; [exists c, r; split; [reflexivity|]; destruct Hc; [assumption|contradiction]|]. split; [exact G2|]. split; [exact N2|].
        destruct o as [oi ops opar]. apply nmv_obj in Nv. apply Nv. }
  destruct (c =? 64) eqn:C64.
  - apply eb_retb. cbv beta iota. exact (X true eq_refl).
  - replace (is_valid_field_char c true || is_numeric_char c) with true.
    + apply eb_retb. cbv beta iota. exact (X false eq_refl).
    + symmetry. apply after_dot_iff. destruct Hc as [Hc| ->]; [auto|discriminate].
Qed.
End Name.
