(** * FaultAll: every error of a load is the fault of the text or of a file it includes. *)
From Verif Require Export FaultItems.
Open Scope N_scope.

Section All.
Context `{U : Unicode}.
Variable fs : fsys.
Notation li := (load_file fs (inc_fuel fs)).

Theorem all_done file L root x0 T : (forall ty p sh, fst (L ty p sh) = NoFuel \/ li ty p sh = L ty p sh) ->
  forall n, alldone fs file L root x0 T n.
Proof.
  intros HL. apply (well_founded_induction lt_wf). intros n IH pl x P R s H. destruct pl.
  - eapply done_items; eauto.
  - eapply done_arr; eauto.
  - eapply done_tup; eauto.
  - eapply done_arr_file; eauto.
  - eapply done_tup_file; eauto.
  - eapply done_inc; eauto. intros. eapply done_value; eauto.
  - eapply done_value; eauto.
  - eapply done_name; eauto.
  - eapply done_chain; eauto.
Qed.
Lemma root_eb file L root sh text n : (forall ty p sh, fst (L ty p sh) = NoFuel \/ li ty p sh = L ty p sh) -> wfvals sh ->
  eb fs file L root ([], sh) text (stream_code fs L root n) (mkst file text 1 1 [] sh).
Proof.
  intros HL W. pose proof (good_init file text sh W) as G.
  assert (A : forall pl, starts root pl -> fits pl text -> nmplace pl -> done fs file L root ([], sh) text n pl [] (mkst file text 1 1 [] sh)).
  { intros pl S F N. eapply all_done; [exact HL|]. split; [apply spot_start; exact S|]. split; [reflexivity|]. split; [exact F|].
    split; [exact G|]. split; [constructor|exact N]. }
  destruct root; cbn [stream_code].
  - pose proof (A _ eq_refl I ltac:(split; [split; [split; constructor|discriminate]|auto])) as H. cbn [FaultDone.done] in H. revert H.
    unfold items_codeL, parse_obj_stream, FaultDone.eb, bind.
    destruct (find_char _) as [[[]|e'| |] s']; auto; cbn [negb].
    destruct (pairs_loop _ _ _ _ _ _ _ _) as [[[] |e| |] ?]; auto.
  - exact I.
  - pose proof (A _ eq_refl I ltac:(split; [constructor|discriminate]) TAny eq_refl) as H. unfold parse_arr_stream.
    apply eb_assoc. apply eb_bind; [exact H|]. intros ? ? _; unfold eb, bind, new_arr, new_tup, gen_id, ret; try (destruct a as [? ?]); exact I.
  - pose proof (A _ eq_refl I ltac:(constructor)) as H. unfold parse_tup_stream. apply eb_assoc. apply eb_bind; [exact H|]. intros ? ? _; unfold eb, bind, new_arr, new_tup, gen_id, ret; try (destruct a as [? ?]); exact I.
Qed.
Theorem blame_complete k : (k <= inc_fuel fs)%nat -> forall file root sh text n e s', wfvals sh ->
  stream_code fs (load_file fs k) root n (mkst file text 1 1 [] sh) = (Err e, s') -> blame fs file root sh text e.
Proof.
  induction k as [|k IH]; intros Le file root sh text n e s' W E;
  (assert (HL : forall k, (k <= inc_fuel fs)%nat -> forall ty p sh, fst (load_file fs k ty p sh) = NoFuel \/ li ty p sh = load_file fs k ty p sh)
    by (intros; apply load_file_mono; auto));
  pose proof (root_eb file _ root sh text n (HL _ Le) W) as B; unfold eb in B; rewrite E in B;
  destruct B as [(kd & -> & F)|(ty & f & x & full & A & Fr & Wx & El)]; try (apply blame_here; exact F).
  - discriminate El.
  - pose proof Fr as (C & _). destruct (fs_entry fs (inc_path file f)) as [[i fe]|] eqn:Fe; [|unfold canon in C; rewrite Fe in C; discriminate].
    destruct (fe_read fe) as [text'|msg] eqn:Rd.
    + destruct ty; [| cbn [load_file] in El; unfold open_file in El; rewrite Fe, Rd in El; discriminate El | | ];
      (rewrite (load_stream fs k _ _ _ i fe text') in El by (discriminate || assumption);
       match type of El with context [stream_code _ _ ?ty ?m ?s0] => destruct (stream_code fs (load_file fs k) ty m s0) as [o s2] eqn:Es end;
       eapply blame_inside; [exact A|exact Fr|exact Fe|exact Rd|]; eapply IH; [lia|exact Wx|];
       replace (entering fs file full x) with (log_ev (EOpen (fe_canon fe)) (asked fs file full x));
       [rewrite Es; destruct o; try discriminate El; cbn in El; injection El as ->; reflexivity|];
       unfold entering, asked, log_ev; cbn; unfold canon in C; rewrite Fe in C; rewrite C; reflexivity).
    + cbn [load_file] in El. unfold open_file in El. rewrite Fe, Rd in El. cbn in El. injection El as <-.
      eapply blame_unreadable; eauto.
Qed.
End All.
