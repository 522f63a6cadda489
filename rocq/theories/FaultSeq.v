(** * FaultSeq: completeness of the faults among the elements of Arrs and Tups and in includes. *)
From Verif Require Export FaultDone.
From Coq Require String.
Import String.StringSyntax.
Open Scope N_scope.

Section Seq.
Context `{U : Unicode}.
Variable fs : fsys.
Variable file : option str.
Notation li := (load_file fs (inc_fuel fs)).
Notation inc := (include_meaning fs file).
Notation EA := (ev_atom inc limit64).
Notation EE := (ev_expr inc limit64).
Notation good := (good file).
Notation er k := (mkperr file k).
Local Existing Instance noexc.
Variable L : inc_ty -> str -> shared -> outcome value * shared.
Hypothesis HL : forall ty p sh, fst (L ty p sh) = NoFuel \/ li ty p sh = L ty p sh.
Variable root : inc_ty.
Variable x0 : est.
Variable T : str.
Notation spot := (spot fs file root x0).
Notation blamed := (blamed fs file L root x0 T).
Notation eb := (eb fs file L root x0 T).
Notation here := (here fs file root x0 T).
Notation done := (done fs file L root x0 T).
Definition alldone n := forall pl x P R s, here pl x P R s -> done n pl P s.

Lemma eb_eqb {A B} (m m' : M A) (f : A -> M B) s s' : m s = m' s' -> eb (bind m' f) s' -> eb (bind m f) s.
Proof. intros E. unfold FaultDone.eb, bind. rewrite E. auto. Qed.

(** White space, then something or the end. *)
Lemma split_ws R : blank R \/ exists w c r, R = w ++ c :: r /\ ws w /\ is_whitespace c = false.
Proof.
  pose proof (pc_find_char (fun b s' => if b then exists w c r, R = w ++ c :: r /\ ws w /\ is_whitespace c = false else blank R)
    (mkst None R 1 1 [] (snd x0))) as H. cbn [s_rest] in H. lapply H; clear H.
  2:{ intros s' w c r _ _ E W _ Hc. exists w, c, r. auto. }
  intros H. lapply H; clear H. 2:{ intros s' w c _ _ E W Lc _. exists w, c. auto. }
  unfold pc, find_char. destruct (find_char_l _ _ _ _) as [b [[? ?] ?]]. destruct b; auto.
Qed.
(** What can follow a value. *)
Lemma after_value close R : folb close R -> blank R \/
  (exists w c r, R = w ++ c :: r /\ ws w /\ w <> [] /\ is_whitespace c = false) \/
  (exists c r, R = c :: r /\ is_end_delimiter c = true /\ Some c = close).
Proof.
  intros F. destruct (split_ws R) as [B|(w & c & r & E & W & Hc)]; [auto|right]. destruct w as [|w0 w].
  - right. exists c, r. split; [exact E|]. destruct F as [F|(c' & r' & F & H)]; [rewrite F in E; discriminate|].
    rewrite F in E. cbn [app] in E. injection E as <- <-. destruct H as [H|[H1 H2]]; [congruence|auto].
  - left. exists (w0 :: w), c, r. repeat split; auto. discriminate.
Qed.
Lemma folb_complete close R : folb close R -> complete close R.
Proof. apply complete_folb. Qed.
(** Finding the next character from where it is. *)
Lemma good_stay P c r x s : is_whitespace c = false -> good P (c :: r) x s -> find_char s = (Ok true, s).
Proof.
  intros Hc (R2 & _). destruct s as [f1 r1 l1 k1 g1 h1]. cbn in R2. subst r1. unfold find_char. cbn [s_rest s_line s_col find_char_l].
  destruct (adv c l1 k1). unfold is_whitespace in Hc. apply orb_false_iff in Hc as [Hc1 Hc2]. rewrite ?Hc1, ?Hc2. reflexivity.
Qed.
Lemma eb_stay {C} P c r x s (f : bool -> M C) : is_whitespace c = false -> good P (c :: r) x s -> eb (f true) s -> eb (bind find_char f) s.
Proof. intros Hc G. apply eb_ok. eapply good_stay; eauto. Qed.
Lemma eb_blank {C} P R x s (f : bool -> M C) : blank R -> good P R x s -> (forall s', good (P ++ R) [] x s' -> eb (f false) s') -> eb (bind find_char f) s.
Proof. intros B G H. destruct (good_end _ _ _ _ _ B G) as (s' & E & G'). eapply eb_ok; [exact E|auto]. Qed.
Lemma good_to P w c r x s : ws w -> is_whitespace c = false -> good P (w ++ c :: r) x s ->
  exists s', good (P ++ w) (c :: r) x s' /\ find_char s = find_char s'.
Proof.
  intros W Hc G. destruct (good_find _ _ _ _ _ _ _ W Hc G) as (s' & E & G'). exists s'. split; auto.
  rewrite E. symmetry. eapply good_stay; eauto.
Qed.
Lemma same_find {A} (f : bool -> M A) s s' : find_char s = find_char s' -> bind find_char f s = bind find_char f s'.
Proof. unfold bind. intros ->. reflexivity. Qed.
Lemma done_same n pl P s P' s' : spacious pl -> find_char s = find_char s' -> done n pl P' s' -> done n pl P s.
Proof.
  intros Sp E. destruct pl; try contradiction; cbn [FaultDone.done].
  - apply eb_at. apply same_find. exact E.
  - intros H t Ht. specialize (H t Ht). revert H. destruct n as [|n]; [exact (fun _ => I)|]. rewrite arr_loop_S. apply eb_at, same_find, E.
  - destruct n as [|n]; [exact (fun _ => I)|]. rewrite tup_loop_S. apply eb_at, same_find, E.
  - intros H t Ht. specialize (H t Ht). revert H. destruct n as [|n]; [exact (fun _ => I)|]. cbn [arr_file_loop]. apply eb_at, same_find, E.
  - destruct n as [|n]; [exact (fun _ => I)|]. cbn [tup_file_loop]. apply eb_at, same_find, E.
  - apply eb_at. apply same_find. exact E.
Qed.
(** At a place with white space it is enough to look at blank texts and at texts that begin with a character. *)
Lemma by_space n pl x P R s : spacious pl -> here pl x P R s ->
  (blank R -> done n pl P s) ->
  (forall P' c r s', is_whitespace c = false -> here pl x P' (c :: r) s' -> good P' (c :: r) x s' -> done n pl P' s') -> done n pl P s.
Proof.
  intros Sp H HB HC. destruct (split_ws R) as [B|(w & c & r & -> & W & Hc)]; [auto|].
  destruct H as (S & E & F & G & N & Nm). destruct (good_to _ _ _ _ _ _ W Hc G) as (s' & G' & Es).
  apply (done_same n pl P s (P ++ w) s' Sp Es). apply HC with c r; auto.
  split; [apply spot_ws; auto|]. split; [rewrite <- app_assoc; exact E|]. split; [destruct pl; try contradiction; exact I|]. auto.
Qed.
(** After a value: move to the next place. *)
Lemma go_on n pl x P w c r s : alldone n -> spacious pl -> spot pl x (P ++ w) -> T = P ++ w ++ c :: r -> good P (w ++ c :: r) x s ->
  nmps (fst x) -> nmplace pl -> ws w -> is_whitespace c = false -> done n pl P s.
Proof.
  intros A Sp S E G N Nm W Hc. destruct (good_to _ _ _ _ _ _ W Hc G) as (s' & G' & Es).
  apply (done_same n pl P s (P ++ w) s' Sp Es). apply (A pl x (P ++ w) (c :: r) s').
  split; [exact S|]. split; [rewrite <- app_assoc; exact E|]. split; [destruct pl; try contradiction; exact I|]. auto.
Qed.

(** *** Arrs *)
Lemma done_arr n ps d els x P R s : (forall m, (m < n)%nat -> alldone m) -> here (InArr ps d els) x P R s -> done n (InArr ps d els) P s.
Proof.
  intros IH H. eapply by_space; [exact I|exact H| |].
  { intros B. eapply by_fault; [exact HL|exact H|]. apply af_elems, ef_end. exact B. }
  clear P R s H. intros P c r s Hc H G. destruct n as [|n]; [intros t Ht; exact I|].
  destruct (is_end_delimiter c) eqn:Ec.
  { destruct (N.eq_dec c 93) as [->|Nc].
    - intros t Ht. rewrite arr_loop_S. eapply eb_stay; [exact Hc|exact G|]. cbn [negb]. eapply eb_peek_unwrap; [exact G|].
      cbn [N.eqb Pos.eqb]. eapply eb_next; [exact G|]. intros; apply eb_ret.
    - eapply by_fault; [exact HL|exact H|]. apply af_elems, ef_bracket; auto. }
  intros t0 Ht0. rewrite arr_loop_S. eapply eb_stay; [exact Hc|exact G|]. cbn [negb]. eapply eb_peek_unwrap; [exact G|].
  replace (c =? 93) with false by (symmetry; apply N.eqb_neq; intros ->; discriminate). rewrite Ec.
  eapply eb_getpos; [exact G|]. pose proof H as (S & ET & _ & _ & N & (Nf & Ne & Nl)).
  apply eb_bind.
  { apply (IH n (Nat.lt_succ_diag_r n) (AtValue Element ps d (Some c_rbrack)) x P (c :: r) s).
    split; [eapply spot_arr_value; exact S|]. split; [exact ET|]. split; [|auto]. exists c, r. auto. }
  intros v s1 E. destruct (val_full _ _ _ HL _ _ _ _ _ _ _ _ _ _ _ _ E G N Nf) as (e & t & R' & x' & ER & He & Fb & Ev & G1 & N1 & Nv).
  rewrite ER in H, ET. pose proof (check_step_lub t0 (has_any t0) (get_type v) eq_refl) as CS.
  pose proof (lub_snoc els v t0 Ht0) as LS.
  destruct (arr_check_step t0 (has_any t0) (get_type v)) as [[t2 any2]|[t1 t2]] eqn:Ck.
  - destruct CS as [C1 ->]. rewrite C1 in LS. destruct (after_value _ _ Fb) as [B|[(w & c1 & r1 & -> & W & Nw & Hc1)|(c1 & r1 & -> & _ & Ec1)]].
    + destruct n as [|n]; [exact I|]. rewrite arr_loop_S. eapply eb_blank; [exact B|exact G1|]. intros s2 G2. cbn [negb].
      eapply eb_line; [exact G2|reflexivity|]. rewrite <- app_assoc. eapply here_fault; [exact H|]. eapply af_end; eauto. congruence.
    + refine (go_on n (InArr ps d (els ++ [v])) x' (P ++ t) w c1 r1 s1 (IH n (Nat.lt_succ_diag_r n)) I _ _ G1 N1 _ W Hc1 t2 LS).
      * rewrite <- app_assoc. eapply spot_arr_next; eauto. congruence.
      * rewrite <- app_assoc. exact ET.
      * split; [exact Nf|]. split; [apply Forall_app; auto|congruence].
    + injection Ec1 as ->. destruct n as [|n]; [exact I|]. rewrite arr_loop_S. eapply eb_stay; [|exact G1|]; [reflexivity|]. cbn [negb].
      eapply eb_peek_unwrap; [exact G1|]. cbn [N.eqb Pos.eqb]. eapply eb_next; [exact G1|]. intros; apply eb_ret.
  - apply check_step_types in Ck as [-> ->]. apply eb_failed; [eapply good_file; exact G1|]. eapply here_fault; [exact H|].
    eapply af_type; eauto using folb_complete. congruence.
Qed.
Lemma done_tup n ps d els x P R s : (forall m, (m < n)%nat -> alldone m) -> here (InTup ps d els) x P R s -> done n (InTup ps d els) P s.
Proof.
  intros IH H. eapply by_space; [exact I|exact H| |].
  { intros B. eapply by_fault; [exact HL|exact H|]. apply tf_elems, ef_end. exact B. }
  clear P R s H. intros P c r s Hc H G. destruct n as [|n]; [exact I|].
  destruct (is_end_delimiter c) eqn:Ec.
  { destruct (N.eq_dec c 41) as [->|Nc].
    - cbn [FaultDone.done]. rewrite tup_loop_S. eapply eb_stay; [exact Hc|exact G|]. cbn [negb]. eapply eb_peek_unwrap; [exact G|].
      cbn [N.eqb Pos.eqb]. eapply eb_next; [exact G|]. intros; apply eb_ret.
    - eapply by_fault; [exact HL|exact H|]. apply tf_elems, ef_bracket; auto. }
  cbn [FaultDone.done]. rewrite tup_loop_S. eapply eb_stay; [exact Hc|exact G|]. cbn [negb]. eapply eb_peek_unwrap; [exact G|].
  replace (c =? 41) with false by (symmetry; apply N.eqb_neq; intros ->; discriminate). rewrite Ec.
  eapply eb_getpos; [exact G|]. pose proof H as (S & ET & _ & _ & N & (Nf & Ne)).
  apply eb_bind.
  { apply (IH n (Nat.lt_succ_diag_r n) (AtValue Element ps d (Some c_rparen)) x P (c :: r) s).
    split; [eapply spot_tup_value; exact S|]. split; [exact ET|]. split; [|auto]. exists c, r. auto. }
  intros v s1 E. destruct (val_full _ _ _ HL _ _ _ _ _ _ _ _ _ _ _ _ E G N Nf) as (e & t & R' & x' & ER & He & Fb & Ev & G1 & N1 & Nv).
  rewrite ER in H, ET. destruct (after_value _ _ Fb) as [B|[(w & c1 & r1 & -> & W & Nw & Hc1)|(c1 & r1 & -> & _ & Ec1)]].
  - destruct n as [|n]; [exact I|]. rewrite tup_loop_S. eapply eb_blank; [exact B|exact G1|]. intros s2 G2. cbn [negb].
    eapply eb_line; [exact G2|reflexivity|]. rewrite <- app_assoc. eapply here_fault; [exact H|]. eapply tf_end; eauto.
  - refine (go_on n (InTup ps d (els ++ [v])) x' (P ++ t) w c1 r1 s1 (IH n (Nat.lt_succ_diag_r n)) I _ _ G1 N1 _ W Hc1).
    + rewrite <- app_assoc. eapply spot_tup_next; eauto.
    + rewrite <- app_assoc. exact ET.
    + split; [exact Nf|]. apply Forall_app; auto.
  - injection Ec1 as ->. destruct n as [|n]; [exact I|]. rewrite tup_loop_S. eapply eb_stay; [|exact G1|]; [reflexivity|]. cbn [negb].
    eapply eb_peek_unwrap; [exact G1|]. cbn [N.eqb Pos.eqb]. eapply eb_next; [exact G1|]. intros; apply eb_ret.
Qed.
Lemma nmfs_nil : nmfs [].
Proof. split; constructor. Qed.
Lemma done_arr_file n els x P R s : (forall m, (m < n)%nat -> alldone m) -> here (ArrFile els) x P R s -> done n (ArrFile els) P s.
Proof.
  intros IH H. eapply by_space; [exact I|exact H| |].
  { intros B t Ht. destruct n as [|n]; [exact I|]. cbn [arr_file_loop]. eapply eb_blank; [exact B|eapply here_good; exact H|].
    intros; apply eb_ret. }
  clear P R s H. intros P c r s Hc H G. intros t0 Ht0. destruct n as [|n]; [exact I|].
  cbn [arr_file_loop]. eapply eb_stay; [exact Hc|exact G|]. cbn [negb].
  eapply eb_getpos; [exact G|]. pose proof H as (S & ET & _ & _ & N & (Ne & Nl)).
  apply eb_bind.
  { apply (IH n (Nat.lt_succ_diag_r n) (AtValue Whole [] 1 None) x P (c :: r) s).
    split; [eapply spot_arr_file_value; exact S|]. split; [exact ET|]. split; [exists c, r; auto|]. split; auto. split; auto. apply nmfs_nil. }
  intros v s1 E. destruct (val_full _ _ _ HL _ _ _ _ _ _ _ _ _ _ _ _ E G N nmfs_nil) as (e & t & R' & x' & ER & He & Fb & Ev & G1 & N1 & Nv).
  rewrite ER in H, ET. pose proof (check_step_lub t0 (has_any t0) (get_type v) eq_refl) as CS.
  pose proof (lub_snoc els v t0 Ht0) as LS.
  destruct (arr_check_step t0 (has_any t0) (get_type v)) as [[t2 any2]|[t1 t2]] eqn:Ck.
  - destruct CS as [C1 ->]. rewrite C1 in LS. destruct (after_value _ _ Fb) as [B|[(w & c1 & r1 & -> & W & Nw & Hc1)|(c1 & r1 & -> & _ & Ec1)]].
    + destruct n as [|n]; [exact I|]. cbn [arr_file_loop]. eapply eb_blank; [exact B|exact G1|]. intros; apply eb_ret.
    + refine (go_on n (ArrFile (els ++ [v])) x' (P ++ t) w c1 r1 s1 (IH n (Nat.lt_succ_diag_r n)) I _ _ G1 N1 _ W Hc1 t2 LS).
      * rewrite <- app_assoc. eapply spot_arr_file_next; eauto. congruence.
      * rewrite <- app_assoc. exact ET.
      * split; [apply Forall_app; auto|congruence].
    + discriminate.
  - apply check_step_types in Ck as [-> ->]. apply eb_failed; [eapply good_file; exact G1|]. eapply here_fault; [exact H|].
    eapply xf_type; eauto using folb_complete. congruence.
Qed.
Lemma done_tup_file n els x P R s : (forall m, (m < n)%nat -> alldone m) -> here (TupFile els) x P R s -> done n (TupFile els) P s.
Proof.
  intros IH H. eapply by_space; [exact I|exact H| |].
  { intros B. cbn [FaultDone.done]. destruct n as [|n]; [exact I|]. cbn [tup_file_loop]. eapply eb_blank; [exact B|eapply here_good; exact H|].
    intros; apply eb_ret. }
  clear P R s H. intros P c r s Hc H G. cbn [FaultDone.done]. destruct n as [|n]; [exact I|].
  cbn [tup_file_loop]. eapply eb_stay; [exact Hc|exact G|]. cbn [negb].
  eapply eb_getpos; [exact G|]. pose proof H as (S & ET & _ & _ & N & Ne).
  apply eb_bind.
  { apply (IH n (Nat.lt_succ_diag_r n) (AtValue Whole [] 1 None) x P (c :: r) s).
    split; [eapply spot_tup_file_value; exact S|]. split; [exact ET|]. split; [exists c, r; auto|]. split; auto. split; auto. apply nmfs_nil. }
  intros v s1 E. destruct (val_full _ _ _ HL _ _ _ _ _ _ _ _ _ _ _ _ E G N nmfs_nil) as (e & t & R' & x' & ER & He & Fb & Ev & G1 & N1 & Nv).
  rewrite ER in H, ET. destruct (after_value _ _ Fb) as [B|[(w & c1 & r1 & -> & W & Nw & Hc1)|(c1 & r1 & -> & _ & Ec1)]].
  - destruct n as [|n]; [exact I|]. cbn [tup_file_loop]. eapply eb_blank; [exact B|exact G1|]. intros; apply eb_ret.
  - refine (go_on n (TupFile (els ++ [v])) x' (P ++ t) w c1 r1 s1 (IH n (Nat.lt_succ_diag_r n)) I _ _ G1 N1 _ W Hc1).
    + rewrite <- app_assoc. eapply spot_tup_file_next; eauto.
    + rewrite <- app_assoc. exact ET.
    + apply Forall_app; auto.
  - discriminate.
Qed.

(** *** Includes *)
Lemma eb_finish ty f l k P R x s : good P R x s ->
  (no_file fs file f -> blamed (er (InvalidIncludePath f l k))) ->
  (cyclic fs file f x -> blamed (er (CyclicInclude f l k))) ->
  (forall full e, fresh_file fs file f x full -> wfvals (snd x) -> fst (L ty (inc_path file f) (asked fs file full x)) = Err e -> blamed e) ->
  eb (finish_include fs L ty f l k) s.
Proof.
  intros (_ & X & F & [_ Wf] & _) H1 H2 H3. unfold finish_include. apply eb_ok with (a := file) (s' := s).
  { unfold getfile. rewrite F. reflexivity. }
  fold (inc_path file f). unfold FaultDone.eb, bind at 1, assert_. destruct (has_parent file); [|exact I]. unfold ret at 1.
  destruct (is_file fs (inc_path file f)) eqn:If; cbn [negb].
  2:{ unfold fail. rewrite F. apply H1. left. exact If. }
  destruct (canon fs (inc_path file f)) as [full|] eqn:Cn.
  2:{ unfold fail. rewrite F. apply H1. right. exact Cn. }
  assert (S0 : s_sh s = snd x) by (rewrite <- X; reflexivity).
  unfold bind at 1, get_sh at 1. unfold bind at 1, put_sh at 1. rewrite S0.
  assert (Z : forall (st0 : option str) (g : option str -> value -> M value) s1, s_file s1 = file -> s_sh s1 = asked fs file full x ->
    (forall o v s2, match g o v s2 with (Err _, _) => False | _ => True end) ->
    eb (let* sh := get_sh in
        if mem_str full (sh_open sh) then fail (CyclicInclude f l k)
        else let* value := (match assoc full (sh_vals sh) with
        | Some v => ret v
        | None => let* v := run_include L ty (inc_path file f) in
                 let* sh := get_sh in
                 let* _ := put_sh (mksh ((full, v) :: sh_vals sh) (sh_open sh) (sh_log sh) (sh_g sh)) in
                 ret v
        end) in g st0 value) s1).
  { intros st0 g s1 F1 S1 Hg. eapply eb_ok; [reflexivity|]. rewrite S1. cbn [asked sh_open sh_vals].
    destruct (mem_str full (reading fs file x)) eqn:Hm.
    { apply eb_failed; [exact F1|]. apply H2. exists full. split; auto. apply mem_str_iff. exact Hm. }
    assert (Hn : ~ In full (reading fs file x)) by (intros Hi; apply mem_in in Hi; congruence).
    destruct (assoc full (sh_vals (snd x))) as [v|] eqn:As.
    - apply eb_retb. apply eb_fine. intros e s2 E. specialize (Hg st0 v s1). rewrite E in Hg. exact Hg.
    - apply eb_bind.
      + unfold FaultDone.eb, bind, run_include. rewrite S1.
        destruct (L ty (inc_path file f) (asked fs file full x)) as [[v|e| |] sh'] eqn:EL; try exact I.
        apply (H3 full); [split; auto|congruence|rewrite EL; reflexivity].
      + intros v s2 _. apply eb_fine. intros e s3 E. specialize (Hg st0 v s2). rewrite E in Hg. exact Hg. }
  specialize (fun st0 => Z st0 (fun storing value => let* sh := get_sh in
          let* _ := match storing with
             | Some f => put_sh (mksh (sh_vals sh) (filter (fun x => negb (str_eqb x f)) (sh_open sh)) (sh_log sh) (sh_g sh))
             | None => ret tt
             end in
          let* sh := get_sh in
          let* _ := put_sh (log_ev (EInc full ty value) sh) in
          ret value)).
  unfold asked, reading in Z. destruct file as [g|] eqn:Ef.
  - destruct (canon fs g) as [cg|]; [|exact I]. 
    exact (Z (Some cg) (set_sh s (mksh (sh_vals (snd x)) (if mem_str cg (sh_open (snd x)) then sh_open (snd x) else cg :: sh_open (snd x))
      (ETry full :: sh_log (snd x)) (sh_g (snd x)))) F eq_refl (fun o v s2 => match o with Some _ => I | None => I end)).
  - 
    exact (Z None (set_sh s (mksh (sh_vals (snd x)) (sh_open (snd x)) (ETry full :: sh_log (snd x)) (sh_g (snd x)))) F eq_refl
      (fun o v s2 => match o with Some _ => I | None => I end)).
Qed.
(** The end of an include, from its last value on. *)
Lemma eb_tail ty v l k P R x s : good P R x s -> folb (Some 62) R ->
  (blank R -> blamed (er (UnexpectedEnd (line_of (P ++ R))))) ->
  (forall w c r, R = w ++ c :: r -> ws w -> w <> [] -> is_whitespace c = false -> c <> 62 ->
    blamed (er (InvalidClosingBracket (Some 62) c (line_of (P ++ w)) (col_of (P ++ w))))) ->
  (forall w r s', R = w ++ 62 :: r -> ws w -> good (P ++ w ++ [62]) r x s' ->
    eb (match v with VStr f => finish_include fs L ty f l k | _ => fail (ExpectedType TStr (get_type v) l k) end) s') ->
  eb (inc_tailL fs L ty v l k) s.
Proof.
  intros G Fb H1 H2 H3. unfold inc_tailL.
  assert (K : forall w c r, R = w ++ c :: r -> ws w -> is_whitespace c = false -> w <> [] \/ c = 62 ->
    eb (let* found := find_char in
        if negb found then let* l := getline in fail (UnexpectedEnd l)
        else
        let* c := next_unwrap in
        if negb (c =? c_gt) then
          let* l := getline in let* k := col_minus_1 in fail (InvalidClosingBracket (Some c_gt) c l k)
        else match v with
          | VStr f => finish_include fs L ty f l k
          | _ => fail (ExpectedType TStr (get_type v) l k)
          end) s).
  { intros w c r E W Hc Hw. rewrite E in G. destruct (good_find _ _ _ _ _ _ _ W Hc G) as (s1 & E1 & G1).
    eapply eb_ok; [exact E1|]. cbn [negb]. eapply eb_next_unwrap; [exact G1|]. intros s2 G2.
    destruct (N.eqb_spec c 62) as [->|Nc]; cbn [negb].
    - apply (H3 w r s2); auto. rewrite app_assoc. exact G2.
    - eapply (eb_back fs file L root x0 T (fun l q => InvalidClosingBracket (Some 62) c l q)); [exact G2|reflexivity|].
      unfold char_line, char_col. rewrite (solid_nl c Hc). apply (H2 w c r); auto. destruct Hw as [Hw|Hw]; [exact Hw|contradiction]. }
  destruct (after_value _ _ Fb) as [B|[(w & c1 & r1 & E & W & Nw & Hc1)|(c1 & r1 & E & De & Ec1)]].
  - eapply eb_blank; [exact B|exact G|]. intros s1 G1. cbn [negb]. eapply eb_line; [exact G1|reflexivity|auto].
  - eapply K; eauto.
  - injection Ec1 as ->. eapply (K [] 62 r1); auto; constructor.
Qed.
Lemma done_inc n ps d k x P R s :
  (forall r ps d close x P R s, here (AtValue r ps d close) x P R s -> done n (AtValue r ps d close) P s) ->
  here (InInc ps d k) x P R s -> done n (InInc ps d k) P s.
Proof.
  intros IH H. eapply by_space; [exact I|exact H| |].
  { intros B. eapply by_fault; [exact HL|exact H|]. apply nf_end. exact B. }
  clear P R s H. intros P c r s Hc H G. cbn [FaultDone.done]. unfold inc_codeL.
  eapply eb_stay; [exact Hc|exact G|]. cbn [negb]. eapply eb_getpos; [exact G|]. pose proof H as (S & ET & _ & _ & N & Nf).
  apply eb_bind.
  { apply (IH Whole ps d (Some c_gt) x P (c :: r) s). split; [eapply spot_inc_value; exact S|]. split; [exact ET|].
    split; [exists c, r; auto|]. auto. }
  intros v s1 E. destruct (val_full _ _ _ HL _ _ _ _ _ _ _ _ _ _ _ _ E G N Nf) as (e & t & R' & x' & ER & He & Fb & Ev & G1 & N1 & Nv).
  rewrite ER in H, ET. eapply eb_tail; [exact G1|exact Fb| | |].
  - intros B. rewrite <- app_assoc. eapply here_fault; [exact H|]. eapply nf_open; eauto.
  - intros w c1 r1 -> W Nw Hc1 Nc1. rewrite <- app_assoc. eapply here_fault; [exact H|]. eapply nf_close; eauto.
  - intros w r1 s2 -> W G2. destruct v as [|b|z|q|f|a|u|o];
      try (apply eb_failed; [eapply good_file; exact G2|]; eapply here_fault; [exact H|]; eapply nf_type; eauto; discriminate).
    eapply eb_finish; [exact G2| | |].
    + intros Hn. eapply here_fault; [exact H|]. eapply nf_path; eauto.
    + intros Hn. eapply here_fault; [exact H|]. eapply nf_cycle; eauto.
    + intros full e1 Ff Wf El. right. exists k, f, x', full. split; [|auto].
      eapply asks_key; [exact S|exact He|exact W|exact Ev|exact ET].
Qed.
End Seq.
