(** * PropStack: the call stack of a load (C55). *)
From Verif Require Export PropLoad PropOps PropRound PropWork StackProofs LevelsBound.
From Verif Require Import Roundtrip PropScope.
From Verif Require Export StackSpec Levels.
From Coq Require String.
Import String.StringSyntax.
Open Scope N_scope.

Section C55.
Context `{U : Unicode}.

(** Whatever the length of the text and the number of its fields, elements, operators and nested containers
    (well formed or not): a load from a string needs at most 261 frames, two for every sign or dot in the
    longest stretch without white space, brackets, quotes, colons and comments, and one for every bracket or
    parenthesis that opens (the type of an Arr of Arrs is walked level by level). *)
Theorem C55_bounded fs w frames g text : (forall p, canon fs p = None) -> chains_at_most w text ->
  261 + 2 * w + brackets text <= frames -> from_str_within fs frames g text = from_str fs g text.
Proof.
  intros C CW L. eapply from_str_sm_no_files; eauto. pose proof (str_ub_no_files fs g text C). lia.
Qed.

(** The brackets of all files, and one for each file *)
Definition disk_brackets (fs : fsys) : N :=
  fold_right N.add 0 (map (fun e => match fe_read e with inl t => brackets t + 1 | inr _ => 0 end) (fs_files fs)).
Lemma sumN_Z W l : Z.of_N (sumN W l) = sumZ (fun i => Z.of_N (W i)) l.
Proof. induction l as [|i l IH]; cbn [sumN sumZ]; [reflexivity|]. lia. Qed.
Lemma disk_sum fs : disk_brackets fs = sumN (file_levels fs) (seq 0 (length (fs_files fs))).
Proof.
  unfold disk_brackets, file_levels. generalize (fs_files fs). intros l.
  assert (M : forall W k, sumN W (map S k) = sumN (fun i => W (S i)) k) by (clear; intros W; induction k as [|i k IH]; cbn [map sumN]; congruence).
  induction l as [|e l IH]; [reflexivity|]. cbn [map fold_right length seq sumN nth_error]. rewrite IH, <- seq_shift, M. reflexivity.
Qed.
Lemma reads_levels fs l : NoDup l -> sumN (file_levels fs) l <= disk_brackets fs.
Proof.
  intros D. enough (X : (sumZ (fun i => Z.of_N (file_levels fs i)) l <= Z.of_N (disk_brackets fs))%Z) by (rewrite <- sumN_Z in X; lia).
  rewrite disk_sum, sumN_Z. apply sumZ_incl; auto; [intros; lia|]. intros i _.
  destruct (Nat.lt_ge_cases i (length (fs_files fs))) as [L|L].
  - left. apply in_seq. lia.
  - right. unfold file_levels. apply nth_error_None in L. rewrite L. reflexivity.
Qed.

(** With files: at most that many for every file and for the text. *)
Theorem C55_includes fs w frames g text : files_at_most w fs -> chains_at_most w text ->
  (N.of_nat (length (fs_files fs)) + 2) * (262 + 2 * w) + brackets text + disk_brackets fs <= frames ->
  from_str_within fs frames g text = from_str fs g text.
Proof.
  intros F C L. eapply from_str_sm; eauto. pose proof (str_ub fs true g text) as B.
  pose proof (reads_levels fs _ (proj1 (C58_reads_once fs g) text)) as R. unfold reads_str in R. unfold tot in B.
  destruct (metered_str fs g text) as [[o sh] u]. cbn [snd] in *. destruct B as [B _]. specialize (B eq_refl). lia.
Qed.
Theorem C55_file fs w frames g path : files_at_most w fs ->
  (N.of_nat (length (fs_files fs)) + 2) * (262 + 2 * w) + disk_brackets fs <= frames ->
  from_file_within fs frames g path = from_file fs g path.
Proof.
  intros F L. destruct (from_file fs g path) as [r|] eqn:E.
  - rewrite <- E. eapply from_file_sm; eauto. pose proof (file_ub fs true g path) as B.
    assert (NN : from_file fs g path <> None) by (rewrite E; discriminate).
    pose proof (reads_levels fs _ (proj2 (C58_reads_once fs g) path NN)) as R. unfold reads_file in R. unfold tot in B.
    destruct (metered_file fs g path) as [[o sh] u]. cbn [snd] in *. destruct B as [B _]. specialize (B eq_refl). lia.
  - destruct (dm_file fs frames g path) as [N|[N _]]; congruence.
Qed.

(** With any stack, the process dies or the result is the result. *)
Theorem C55_dies_or_agrees fs frames g :
  (forall text, from_str_within fs frames g text = None \/ from_str_within fs frames g text = from_str fs g text) /\
  (forall path, from_file_within fs frames g path = None \/ from_file_within fs frames g path = from_file fs g path).
Proof.
  split; intros x.
  - destruct (dm_str fs frames g x) as [N|[N _]]; auto.
  - destruct (dm_file fs frames g x) as [N|[N _]]; auto.
Qed.

(** A text has no chain longer than the number of its signs and dots. *)
Lemma chains_links text : chains_at_most (links text) text.
Proof. intros a b c -> _. unfold links. rewrite !filter_app, !app_length. lia. Qed.
Corollary C55_any_text fs frames g text : (forall p, canon fs p = None) ->
  261 + 2 * links text + brackets text <= frames -> exists r, from_str_within fs frames g text = Some r.
Proof.
  intros C L. rewrite (C55_bounded fs (links text)); auto; [apply C03_from_str_returns|apply chains_links].
Qed.

(** The types do need their frames: no load survives that meets a type with more levels than there are
    frames. *)
Theorem C55_types_needed fs frames g o v :
  (exists text, from_str_within fs frames g text = Some (OOk o)) \/ (exists path, from_file_within fs frames g path = Some (OOk o)) ->
  part v (VObj o) -> levels v <= frames + 1.
Proof.
  assert (T : forall r : outcome obj, to_ores r = Some (OOk o) -> r = Ok o) by (intros [a|e| |]; cbn; intros H; inversion H; reflexivity).
  intros [(t & E)|(t & E)] P.
  - destruct (dm_str fs frames g t) as [N|[N L]]; [congruence|]. rewrite N in E. unfold from_str in E. apply T in E.
    rewrite <- er_str in E. pose proof (str_ub fs false g t) as B. destruct (metered_str fs g t) as [[r sh] u]. cbn [fst snd] in *. subst r.
    destruct B as [_ B]. specialize (B v P). lia.
  - destruct (dm_file fs frames g t) as [N|[N L]]; [congruence|]. rewrite N in E. unfold from_file in E. apply T in E.
    rewrite <- er_file in E. pose proof (file_ub fs false g t) as B. destruct (metered_file fs g t) as [[r sh] u]. cbn [fst snd] in *. subst r.
    destruct B as [_ B]. specialize (B v P). lia.
Qed.
(** So for every stack there is a text, without a sign or a dot and nested once, that is accepted with a
    larger one but kills the process: a: [] aa: [a] aaa: [aa] ... *)
Lemma tower_levels inc n : forall x, exists fields y v,
  ev_items (ev_expr inc limit64 1) (tower n) [] None x = Some ((fields, None), y) /\
  map fst fields = map nm (seq 0 (S n)) /\ assoc (nm n) fields = Some v /\ levels v = N.of_nat (S n).
Proof.
  induction n as [|n IH]; intros x.
  - destruct x as [gl sh]. eexists _, _, _. split; [reflexivity|]. split; [reflexivity|]. split; reflexivity.
  - destruct (IH x) as (fields & y & v & E & F & A & D). cbn [tower]. rewrite items_app. unfold ebind at 1. rewrite E.
    cbn [fst snd]. rewrite ev_items_cons, (legal_kind _ (nm_legal _)), (nm_fresh n fields F). unfold ebind at 1.
    rewrite ev_atom_expr, ev_arr. change (deep limit64 (1 + 1) ?m) with m. unfold ebind at 1 2. cbn [emap]. unfold ebind at 1.
    rewrite ev_atom_expr. cbn [ev_atom]. rewrite (name_field fields (nm n) (legal_not_builtin _ (nm_legal n))), A.
    cbn [elift]. unfold eret at 1. unfold ebind, eret. cbn [map]. unfold lub. cbn [fold_left].
    rewrite most_specific_any_l. destruct y as [gl sh]. cbn [fresh]. eexists _, _, _. split; [reflexivity|].
    split; [rewrite (seq_S (S n)), !map_app; f_equal; exact F|]. split.
    + apply assoc_last. apply (nm_fresh n fields F).
    + unfold levels in *. cbn [get_type nested arr_inner_type]. rewrite D. lia.
Qed.
Theorem C55_types_overflow fs g frames : exists text o,
  from_str fs g text = Some (OOk o) /\ from_str_within fs frames g text = None.
Proof.
  set (n := N.to_nat (frames + 1)).
  destruct (tower_text n) as (t & R). destruct (tower_levels (include_meaning fs None) n ([], init_sh g)) as (fields & y & v & E & F & A & D).
  exists t. assert (H : r_doc (tower n) t).
  { exists [], t, []. split; [rewrite app_nil_r; reflexivity|]. split; [constructor|]. split; [exact R|left; auto]. }
  set (o := MkObj (g_next (sh_g (snd y))) fields None). assert (O : from_str fs g t = Some (OOk o)).
  { apply (str_ok fs g _ _ H). unfold str_meaning, meaning, ev_doc, ebind. rewrite E. destruct y. eexists. reflexivity. }
  exists o. split; [exact O|]. destruct (proj1 (C55_dies_or_agrees fs frames g) t) as [X|X]; [exact X|exfalso].
  rewrite O in X. pose proof (C55_types_needed fs frames g o v (or_introl (ex_intro _ t X))) as B.
  assert (P : part v (VObj o)).
  { apply assoc_some in A as (l & r & -> & _). eapply part_field; [apply in_or_app; right; left; reflexivity|constructor]. }
  specialize (B P). lia.
Qed.

(** The signs do need their frames: for every stack there is a text that is accepted with a larger one but
    kills the process. *)
Lemma signs_overflow fs li ss : forall fuel st ps l k d br first t s,
  t <> [] -> s_rest s = map unop_text ss ++ t -> st <= 2 * N.of_nat (length ss) -> (2 * length ss + 1 <= fuel)%nat ->
  fst (st_parse_value fs li fuel st ps l k d br first s) = Panic.
Proof.
  induction ss as [|op ss IH]; intros fuel st ps l k d br first t s Ht R L F.
  - destruct fuel as [|fuel]; [cbn in F; lia|]. rewrite st_parse_value_S. cbn [length] in L. replace st with 0 by lia. reflexivity.
  - destruct fuel as [|[|fuel]]; [cbn in F; lia|cbn in F; lia|]. rewrite st_parse_value_S.
    destruct (N.eq_dec st 0) as [->|S0]; [reflexivity|]. rewrite frame_S by lia.
    cbn [map app] in R. unfold bind at 1, peek_unwrap, peek. unfold bind at 1. rewrite R. cbn [unwrap]. unfold ret at 1.
    assert (X : fst (st_parse_unary_op fs li (S fuel) (st - 1) ps d br op s) = Panic).
    { rewrite st_parse_unary_op_S. destruct (N.eq_dec st 1) as [->|S1]; [reflexivity|]. rewrite frame_S by lia.
      unfold bind at 1. unfold next. rewrite R. destruct (adv (unop_text op) (s_line s) (s_col s)) as [l' k'].
      unfold bind at 1. assert (A : match op with
                         | UMinus => opt_char_eqb (Some (unop_text op)) (Some c_minus)
                         | UPlus => opt_char_eqb (Some (unop_text op)) (Some c_plus)
                         end = true) by (destruct op; reflexivity). rewrite A. cbn [assert_ ret].
      unfold bind at 1. cbn [getpos]. unfold bind at 1. unfold peek. cbn [s_rest set_stream].
      destruct (map unop_text ss ++ t) as [|c r] eqn:M; [destruct ss; [contradiction|discriminate]|].
      unfold bind at 1. 
      assert (K : fst (st_parse_value fs li fuel (st - 1 - 1) ps (s_line (set_stream s (c :: r) l' k')) (s_col (set_stream s (c :: r) l' k')) (d + 1) br false (set_stream s (c :: r) l' k')) = Panic).
      { apply (IH fuel) with (t := t); auto; cbn [length] in *; lia. }
      destruct (st_parse_value _ _ _ _ _ _ _ _ _ _ _) as [[x|e| |] s']; cbn [fst] in K; try discriminate K. reflexivity. }
    destruct op; cbn [unop_text]; cbv beta iota; unfold bind; cbn [N.eqb Pos.eqb];
      destruct (st_parse_unary_op fs li (S fuel) (st - 1) ps d br _ s) as [[| | |] s2]; try discriminate X; reflexivity.
Qed.

(** [a: ---...-1] with [n] signs *)
Definition signed (n : nat) : str := lit "a: " ++ repeat c_minus n ++ lit "1".
Theorem C55_signs_overflow fs g n frames : frames <= 2 * N.of_nat n ->
  from_str_within fs frames g (signed n) = None /\ exists o, from_str fs g (signed n) = Some (OOk o).
Proof.
  intros L. split.
  - unfold from_str_within.
    enough (X : fst (run_stream (st_parse_obj_stream fs (st_load_file fs (inc_fuel fs)) (stream_fuel (signed n)) frames)
                       None (signed n) (init_sh g)) = Panic) by (rewrite X; reflexivity).
    assert (F : exists m, stream_fuel (signed n) = S (S m) /\ (2 * n + 1 <= m)%nat).
    { unfold stream_fuel, signed. rewrite !app_length, repeat_length. cbn [length lit]. eexists. split; [|shelve].
      rewrite Nat.add_comm. reflexivity. Unshelve. cbn. lia. }
    destruct F as (m & -> & F). unfold run_stream, st_parse_obj_stream.
    destruct (N.eq_dec frames 0) as [->|F0]; [reflexivity|]. rewrite frame_S by lia.
    destruct n as [|n]; [lia|]. unfold signed. cbn [repeat app].
    change (lit "a: ") with [97; 58; 32]. cbn [app].
    set (tail := repeat c_minus n ++ lit "1").

    set (s0 := mkst None (97 :: 58 :: 32 :: c_minus :: tail) 1 1 [] (init_sh g)).
    assert (B0 : find_char s0 = (Ok true, s0)) by reflexivity.
    unfold bind at 1. rewrite B0. cbn [negb]. unfold bind at 1. rewrite st_pairs_loop_S. unfold bind at 1.
    rewrite st_parse_field_value_pair_S. destruct (N.eq_dec frames 1) as [->|F1]; [reflexivity|]. rewrite frame_S by lia.
    assert (B1 : peek_unwrap s0 = (Ok 97, s0)) by reflexivity.
    unfold bind at 1. rewrite B1. change ((97 =? c_rbrace) && _) with false. change (is_end_delimiter 97) with false.
    cbv beta iota.
    set (s1 := mkst None (32 :: c_minus :: tail) 1 3 [] (init_sh g)).
    assert (B2 : parse_field 1 1 s0 = (Ok ([97], FRegular), s1)) by reflexivity.
    unfold bind at 1. unfold getpos. cbv beta iota. unfold bind at 1. change (s_line s0) with 1. change (s_col s0) with 1. rewrite B2.
    unfold bind at 1. cbn [existsb ret].
    set (s2 := mkst None (c_minus :: tail) 1 4 [] (init_sh g)).
    assert (B3 : find_char s1 = (Ok true, s2)) by reflexivity.
    unfold bind at 1. rewrite B3. cbn [negb]. unfold bind at 1. unfold getpos. cbv beta iota. unfold bind at 1.
    assert (X : fst (st_parse_value fs (st_load_file fs (inc_fuel fs)) m (frames - 1 - 1) [] (s_line s2) (s_col s2) 1 None true s2) = Panic).
    { apply (signs_overflow fs _ (repeat UMinus (S n))) with (t := lit "1"); [discriminate| | |].
      - cbn [s_rest s2 tail]. unfold s2, tail. cbn [s_rest repeat map unop_text app]. f_equal. f_equal. clear. induction n; cbn; congruence.
      - rewrite repeat_length. lia.
      - rewrite repeat_length. lia. }
    destruct (st_parse_value _ _ _ _ _ _ _ _ _ _ _) as [[x|e'| |] s']; cbn [fst] in X; try discriminate X. reflexivity.
  - destruct (C25_signs_not_limited fs g (lit "a") (repeat UMinus n) 1) as (o & O & _); [|exists o].
    + exists 97, []. split; [reflexivity|]. split; [left; reflexivity|]. split; [constructor|]. vm_compute. intuition discriminate.
    + rewrite <- O. f_equal. unfold signed. change (lit "a: ") with (lit "a" ++ lit ": "). rewrite <- app_assoc. do 2 f_equal.
      change (N_to_dec 1) with (lit "1"). f_equal. clear. induction n; cbn; congruence.
Qed.

(** ** Examples *)
(** the longest chain, computed *)
Fixpoint longest (t : str) : N := match t with [] => 0 | c :: t' => N.max (run (c :: t')) (longest t') end.
Lemma run_app b c : forallb (fun x => negb (separates x)) b = true -> links b <= run (b ++ c).
Proof.
  induction b as [|x b IH]; cbn [forallb app run]; [unfold links; cbn; lia|].
  intros F. apply andb_true_iff in F as [F1 F2]. apply negb_true_iff in F1. rewrite F1. specialize (IH F2).
  unfold links in *. cbn [filter]. destruct (is_link x); cbn [length]; lia.
Qed.
Lemma longest_chain w t : longest t <= w -> chains_at_most w t.
Proof.
  intros L a b c -> F. assert (K : forall a, run (b ++ c) <= longest (a ++ b ++ c)).
  { clear. induction a as [|x a IH]; cbn [app longest]; [|lia]. destruct (b ++ c); cbn [longest run]; lia. }
  pose proof (K a). pose proof (run_app b c F). lia.
Qed.
(** An Arr of any number of elements, each an expression with signs and dots: 272 frames. *)
Definition elements (n : nat) : str := lit "a: [" ++ concat (repeat (lit "-1.5+-2.5
") n) ++ lit "]".
Example C55_elements n : chains_at_most 5 (elements n).
Proof.
  apply longest_chain. unfold elements. set (l := lit "-1.5+-2.5
").
  assert (S : forall t, longest t <= 5 -> longest (l ++ t) <= 5) by (intros t H; unfold l; cbn; lia).
  assert (K : longest (concat (repeat l n) ++ lit "]") <= 5).
  { induction n as [|n IH]; cbn [repeat concat]; [cbn; lia|]. rewrite <- app_assoc. apply S. exact IH. }
  revert K. generalize (concat (repeat l n) ++ lit "]"). intros t K. cbn. lia.
Qed.
Example C55_elements_brackets n : brackets (elements n) = 1.
Proof.
  unfold elements. rewrite !brackets_app. change (brackets (lit "]")) with 0. change (brackets (lit "a: [")) with 1.
  induction n as [|n IH]; [reflexivity|]. cbn [repeat concat]. rewrite brackets_app. exact IH.
Qed.
Example C55_elements_load g n : from_str_within no_fs 272 g (elements n) = from_str no_fs g (elements n).
Proof.
  apply (C55_bounded no_fs 5); [|apply C55_elements|rewrite C55_elements_brackets; lia].
  intros p. unfold canon, fs_entry. cbn. destruct (path_parent p); reflexivity.
Qed.

Example C55_small : exists o, from_str_within no_fs 265 g0 (lit "a: -1.5") = Some (OOk o).
Proof. eexists. vm_compute. reflexivity. Qed.
End C55.

Print Assumptions C55_bounded.
Print Assumptions C55_includes.
Print Assumptions C55_file.
Print Assumptions C55_any_text.
Print Assumptions C55_signs_overflow.
Print Assumptions C55_dies_or_agrees.
Print Assumptions C55_types_needed.
Print Assumptions C55_types_overflow.
