(** * PropAmid: files that come and go during a load (C71). *)
From Verif Require Export AmidProofs.
From Coq Require String Lia.
Import String.StringSyntax.
Open Scope N_scope.

(** ** What the load saw *)
Fixpoint first_tick (o : option str) (log : list event) : nat :=
  match log with
  | [] => 0%nat
  | e :: rest => if in_dec oeq o (opens rest) then first_tick o rest else (tick rest + 3)%nat
  end.
Definition frame_at (H : nat -> fsys) (log : list event) (x : nat * fentry) : fentry :=
  let '(i, e) := x in
  mkfe (fe_canon e) (if in_dec oeq (fe_canon e) (opens log)
                     then match nth_error (fs_files (H (first_tick (fe_canon e) log))) i with Some e' => fe_read e' | None => fe_read e end
                     else fe_read e).
Definition film (all : fsys) (H : nat -> fsys) (log : list event) : fsys :=
  mkfs (fs_resolve all) (map (frame_at H log) (combine (seq 0 (List.length (fs_files all))) (fs_files all))) (fs_open_err all).
Lemma frame_canon H log l : forall n, map fe_canon l = map (fun x => fe_canon (frame_at H log x)) (combine (seq n (List.length l)) l).
Proof. induction l as [|e l IH]; intros n; cbn; [reflexivity|]. f_equal. apply IH. Qed.
Lemma film_names all H log : same_names all (film all H log).
Proof. split; [reflexivity|]. split; [reflexivity|]. cbn. rewrite map_map. apply frame_canon. Qed.
Lemma film_entry all H log p : fs_entry (film all H log) p = option_map (fun x => (fst x, frame_at H log x)) (fs_entry all p).
Proof.
  unfold fs_entry. cbn [film fs_resolve fs_files]. destruct (path_parent p); [|reflexivity]. destruct (fs_resolve all p) as [i|]; [|reflexivity].
  rewrite nth_error_map, combine_seq. destruct (nth_error (fs_files all) i) as [e|]; reflexivity.
Qed.
Lemma entry_nth fs p i e : fs_entry fs p = Some (i, e) -> nth_error (fs_files fs) i = Some e.
Proof.
  unfold fs_entry. destruct (path_parent p); [|discriminate]. destruct (fs_resolve fs p) as [j|]; [|discriminate].
  destruct (nth_error (fs_files fs) j) eqn:E; [|discriminate]. intros [= <- <-]. exact E.
Qed.
Lemma first_tick_split o later earlier : ~ In o (opens earlier) -> first_tick o (later ++ EOpen o :: earlier) = (tick earlier + 3)%nat.
Proof.
  intros N. induction later as [|e later IH]; cbn [app first_tick].
  - destruct (in_dec _ o (opens earlier)); [contradiction|reflexivity].
  - destruct (in_dec _ o _) as [I|I]; [exact IH|]. exfalso. apply I. rewrite opens_app. apply in_or_app. right. left. reflexivity.
Qed.
Lemma film_opened all H log p later earlier : come_and_go all H -> log = later ++ EOpen (canon (film all H log) p) :: earlier ->
  ~ In (canon (film all H log) p) (opens earlier) -> is_file (H (tick earlier + 3)%nat) p = true ->
  text_at (film all H log) p = text_at (H (tick earlier + 3)%nat) p.
Proof.
  intros C E N F. rewrite <- (names_canon _ _ (film_names all H log)) in E, N. set (t := (tick earlier + 3)%nat) in *.
  unfold is_file in F. unfold text_at. rewrite film_entry. destruct (fs_entry (H t) p) as [[i e]|] eqn:Et; [|discriminate].
  destruct (proj1 (C t) p i e Et) as (e' & Ea & K). unfold canon in E, N. rewrite Ea in *. cbn [option_map fst snd frame_at fe_read].
  destruct (in_dec _ _ _) as [I|I].
  - rewrite E, first_tick_split by assumption. fold t. rewrite (entry_nth _ _ _ _ Et). reflexivity.
  - exfalso. apply I. rewrite E, opens_app. apply in_or_app. right. left. reflexivity.
Qed.
Lemma film_unopened all H log p : ~ In (EOpen (canon (film all H log) p)) log -> text_at (film all H log) p = text_at all p.
Proof.
  intros N. rewrite <- (names_canon _ _ (film_names all H log)) in N. unfold text_at. rewrite film_entry. unfold canon in N.
  destruct (fs_entry all p) as [[i e]|]; [|reflexivity]. cbn [option_map fst snd frame_at fe_read]. destruct (in_dec _ _ _) as [I|I]; [|reflexivity].
  exfalso. apply N. unfold opens in I. apply in_flat_map in I as (x & I & K). destruct x; cbn in K; try contradiction. destruct K as [->|[]]. exact I.
Qed.
Lemma film_seen all H log : come_and_go all H -> NoDup (opens log) -> seen all H log (film all H log).
Proof.
  intros C N. split; [apply film_names|]. intros p later earlier E F. eapply film_opened; eauto. rewrite E in N. apply nodup_before in N. exact N.
Qed.
Lemma film_not_old all H l l' : come_and_go all H -> NoDup (opens l') -> ~ diverged (old H (film all H l)) l l'.
Proof.
  intros C N (b & (p & rest & -> & F & Q) & [m1 E1] & [m2 E2]). apply Q. eapply film_opened; eauto. rewrite E2 in N. apply nodup_before in N. exact N.
Qed.
Lemma nodup_ext l l' : ext l l' -> NoDup (opens l') -> NoDup (opens l).
Proof. intros [m ->]. rewrite opens_app. induction (opens m) as [|a x IH]; cbn; auto. intros N. inversion N; auto. Qed.

Section P.
Context `{U : Unicode}.
(** C71.  While a load runs, other programs may create, delete and rewrite files at any time, between any two steps of the load, as
    long as a path, when there is a file at it, always leads to the same one ([all] has them all).  Then there is one file system -
    each opened file with what was in it when it was opened, all others as in [all] - on which the load does exactly the same
    (result, error, events) if nothing changes; or the load ends because a file was not there when it was needed.  Every file is opened
    at most once. *)
Theorem C71_as_seen all H g : come_and_go all H ->
  (forall text r, parse_obj_str_amid H (inc_fuel all) g text = r ->
     NoDup (opens (sh_log (snd r))) /\ exists fs, seen all H (sh_log (snd r)) fs /\ (forall p, ~ In (EOpen (canon fs p)) (sh_log (snd r)) -> text_at fs p = text_at all p) /\
       (parse_obj_str fs g text = r \/ lost all H (fst r))) /\
  (forall path r, (is_file all path = true -> canon all path <> None) -> parse_obj_file_amid H (inc_fuel all) g path = r ->
     NoDup (opens (sh_log (snd r))) /\ exists fs, seen all H (sh_log (snd r)) fs /\ (forall p, ~ In (EOpen (canon fs p)) (sh_log (snd r)) -> text_at fs p = text_at all p) /\
       (parse_obj_file fs g path = r \/ lost all H (fst r))).
Proof.
  intros C.
  assert (A : forall r r' : outcome obj * shared, NoDup (opens (sh_log (snd r'))) ->
    near all H (old H (film all H (sh_log (snd r)))) [] (lgh r) (lgh r') r r' ->
    NoDup (opens (sh_log (snd r))) /\ exists fs, seen all H (sh_log (snd r)) fs /\ (forall p, ~ In (EOpen (canon fs p)) (sh_log (snd r)) -> text_at fs p = text_at all p) /\
      fs = film all H (sh_log (snd r)) /\ (r' = r \/ lost all H (fst r))).
  { intros r r' N (_ & _ & E).
    assert (N' : NoDup (opens (sh_log (snd r)))).
    { destruct E as [->|[[_ X]|E]]; [exact N|exact (nodup_ext _ _ X N)|]. destruct (film_not_old _ _ _ _ C N E). }
    split; [exact N'|]. exists (film all H (sh_log (snd r))). split; [apply film_seen; assumption|]. split; [intros p; apply film_unopened|]. split; [reflexivity|].
    destruct E as [E|[[E _]|E]]; [auto|auto|]. destruct (film_not_old _ _ _ _ C N E). }
  split.
  - intros text r Er. set (fs := film all H (sh_log (snd r))).
    assert (N : NoDup (opens (sh_log (snd (parse_obj_str fs g text))))).
    { eapply C23_each_file_opened_once. left. exists text. do 2 eexists. split; [apply surjective_pairing|]. split; reflexivity. }
    pose proof (amid_str all fs H (film_names _ _ _) C g text) as B. assert (Kf : inc_fuel fs = inc_fuel all) by apply (names_fuel _ _ (film_names all H (sh_log (snd r)))). rewrite Kf, Er in B.
    destruct (A r _ N B) as (A0 & fs' & A1 & A2 & -> & A4). split; [exact A0|]. exists fs. auto.
  - intros path r P Er. set (fs := film all H (sh_log (snd r))).
    assert (N : NoDup (opens (sh_log (snd (parse_obj_file fs g path))))).
    { eapply C23_each_file_opened_once. right. exists path. do 2 eexists. split; [apply surjective_pairing|]. split; [reflexivity|].
      split; [|reflexivity]. destruct (C03_from_file_returns fs g path) as [x R].
      { unfold fs. rewrite <- (names_canon _ _ (film_names _ H _)), <- (names_is_file _ _ (film_names _ H _)). exact P. }
      unfold from_file in R. intros K. rewrite K in R. discriminate. }
    pose proof (amid_file all fs H (film_names _ _ _) C g path) as B. assert (Kf : inc_fuel fs = inc_fuel all) by apply (names_fuel _ _ (film_names all H (sh_log (snd r)))). rewrite Kf, Er in B.
    destruct (A r _ N B) as (A0 & fs' & A1 & A2 & -> & A4). split; [exact A0|]. exists fs. auto.
Qed.
(** So a load that succeeds amid changes is a load of what it saw, and all that is known of loads holds for it. *)
Corollary C71_loaded all H g o : come_and_go all H ->
  (forall text, from_str_amid H (inc_fuel all) g text = Some (OOk o) ->
     exists fs, seen all H (sh_log (snd (parse_obj_str_amid H (inc_fuel all) g text))) fs /\ from_str fs g text = Some (OOk o)) /\
  (forall path, (is_file all path = true -> canon all path <> None) -> from_file_amid H (inc_fuel all) g path = Some (OOk o) ->
     exists fs, seen all H (sh_log (snd (parse_obj_file_amid H (inc_fuel all) g path))) fs /\ from_file fs g path = Some (OOk o)).
Proof.
  intros C. destruct (C71_as_seen all H g C) as [A B]. split.
  - intros text E. destruct (A text _ eq_refl) as (_ & fs & Sn & _ & [Q|Q]); exists fs; (split; [exact Sn|]).
    + unfold from_str. rewrite Q. exact E.
    + unfold from_str_amid in E. inversion Q as [t f n l c F1 F2 K|t p F1 F2 K|t p F1 F2 K]; rewrite <- K in E; discriminate.
  - intros path P E. destruct (B path _ P eq_refl) as (_ & fs & Sn & _ & [Q|Q]); exists fs; (split; [exact Sn|]).
    + unfold from_file. rewrite Q. exact E.
    + unfold from_file_amid in E. inversion Q as [t f n l c F1 F2 K|t p F1 F2 K|t p F1 F2 K]; rewrite <- K in E; discriminate.
Qed.
(** The load always ends, and it panics only if a file is missing at some moment. *)
Corollary C71_ends all H g : come_and_go all H ->
  (forall text, fst (parse_obj_str_amid H (inc_fuel all) g text) <> NoFuel /\
     (from_str_amid H (inc_fuel all) g text = None -> exists t p, is_file all p = true /\ is_file (H t) p = false)) /\
  (forall path, (is_file all path = true -> canon all path <> None) -> fst (parse_obj_file_amid H (inc_fuel all) g path) <> NoFuel /\
     (from_file_amid H (inc_fuel all) g path = None -> exists t p, is_file all p = true /\ is_file (H t) p = false)).
Proof.
  intros C. destruct (C71_as_seen all H g C) as [A B].
  assert (L : forall o : outcome obj, lost all H o -> o <> NoFuel /\ exists t p, is_file all p = true /\ is_file (H t) p = false).
  { intros o Q. inversion Q; subst; (split; [discriminate|eauto]). }
  split.
  - intros text. destruct (A text _ eq_refl) as (_ & fs & Sn & _ & [Q|Q]).
    + split; [rewrite <- Q; apply C04_loading_terminates|]. intros E. exfalso. destruct (C03_from_str_returns fs g text) as [r R].
      unfold from_str_amid in E. unfold from_str in R. rewrite <- Q in E. congruence.
    + apply L in Q. tauto.
  - intros path P. destruct (B path _ P eq_refl) as (_ & fs & Sn & _ & [Q|Q]).
    + split; [rewrite <- Q; apply C04_loading_terminates|]. intros E. exfalso.
      destruct (C03_from_file_returns fs g path) as [r R].
      { destruct Sn as [Sn _]. rewrite <- (names_canon _ _ Sn), <- (names_is_file _ _ Sn). exact P. }
      unfold from_file_amid in E. unfold from_file in R. rewrite <- Q in E. congruence.
    + apply L in Q. tauto.
Qed.
(** If no file is ever missing, the load does what it does on the file system that it saw (C68). *)
Corollary C71_always_there all H g : come_and_go all H -> (forall t p, is_file all p = true -> is_file (H t) p = true) ->
  (forall text, exists fs, seen all H (sh_log (snd (parse_obj_str_amid H (inc_fuel all) g text))) fs /\ from_str_amid H (inc_fuel all) g text = from_str fs g text) /\
  (forall path, (is_file all path = true -> canon all path <> None) ->
     exists fs, seen all H (sh_log (snd (parse_obj_file_amid H (inc_fuel all) g path))) fs /\ from_file_amid H (inc_fuel all) g path = from_file fs g path).
Proof.
  intros C T. destruct (C71_as_seen all H g C) as [A B].
  assert (L : forall o : outcome obj, ~ lost all H o).
  { intros o Q. inversion Q as [t f n l c F1 F2 K|t p F1 F2 K|t p F1 F2 K]; rewrite T in F2 by assumption; discriminate. }
  split.
  - intros text. destruct (A text _ eq_refl) as (_ & fs & Sn & _ & [Q|Q]); [|destruct (L _ Q)]. exists fs. split; [exact Sn|]. unfold from_str. rewrite Q. reflexivity.
  - intros path P. destruct (B path _ P eq_refl) as (_ & fs & Sn & _ & [Q|Q]); [|destruct (L _ Q)]. exists fs. split; [exact Sn|]. unfold from_file. rewrite Q. reflexivity.
Qed.
(** If nothing changes, these are the functions of Parser.v. *)
Corollary C71_nothing_changes fs g :
  (forall text, from_str_amid (fun _ => fs) (inc_fuel fs) g text = from_str fs g text) /\
  (forall path, from_file_amid (fun _ => fs) (inc_fuel fs) g path = from_file fs g path).
Proof.
  assert (C : come_and_go fs (fun _ => fs)) by (intros t; split; [eauto|auto]).
  assert (L : forall o : outcome obj, ~ lost fs (fun _ => fs) o).
  { intros o Q. inversion Q as [t f n l c F1 F2 K|t p F1 F2 K|t p F1 F2 K]; congruence. }
  assert (O : forall l l', ~ diverged (old (fun _ => fs) fs) l l') by (intros l l' (b & (p & rest & _ & _ & Q) & _); congruence).
  unfold from_str_amid, from_file_amid, from_str, from_file. split.
  - intros text. destruct (amid_str fs fs _ (names_refl fs) C g text) as (_ & _ & [->|[[Q _]|Q]]); [reflexivity|destruct (L _ Q)|destruct (O _ _ Q)].
  - intros path. destruct (amid_file fs fs _ (names_refl fs) C g path) as (_ & _ & [->|[[Q _]|Q]]); [reflexivity|destruct (L _ Q)|destruct (O _ _ Q)].
Qed.
End P.

From Verif Require Import PropFiles.

(** ** A path that leads to two files in turn *)
Section Links.
Context `{U : Unicode}.
Lemma stop_bind {A B} (m : M A) (f : A -> M B) s : fst (m s) = NoFuel -> fst (bind m f s) = NoFuel.
Proof. unfold bind. destruct (m s) as [[a|e| |] s']; cbn; congruence. Qed.
Lemma go_bind {A B} (m : M A) (f : A -> M B) s a s' : m s = (Ok a, s') -> fst (f a s') = NoFuel -> fst (bind m f s) = NoFuel.
Proof. unfold bind. intros ->. auto. Qed.
(** a file that includes the path b *)
Definition self : str := lit "x: <""b"">".
Ltac go := eapply go_bind; [vm_compute; reflexivity|cbv beta].
Lemma self_steps fin file sh : (forall l c s, s_sh s = sh -> s_file s = file -> fst (fin IObj (lit "b") l c s) = NoFuel) ->
  fst (run_stream (am_parse_obj_stream fin (stream_fuel self)) file self sh) = NoFuel.
Proof.
  intros HF. unfold run_stream, am_parse_obj_stream.
  assert (G : fst (am_parse_obj_stream fin (stream_fuel self) (mkst file self 1 1 [] sh)) = NoFuel).
  2:{ unfold am_parse_obj_stream in G. destruct (bind _ _ _) as [o s]. exact G. }
  unfold am_parse_obj_stream. let k := eval vm_compute in (stream_fuel self) in change (stream_fuel self) with k.
  go. match goal with |- fst ((if negb ?b then _ else _) _) = _ => change (negb b) with false end. cbv iota.
  apply stop_bind. rewrite am_pairs_loop_S. apply stop_bind. rewrite am_parse_field_value_pair_S.
  go. match goal with |- fst ((if ?b then _ else _) _) = _ => change b with false end. cbv iota.
  match goal with |- fst ((if ?b then _ else _) _) = _ => change b with false end. cbv iota.
  go. go. go. go. match goal with |- fst ((if negb ?b then _ else _) _) = _ => change (negb b) with false end. cbv iota.
  go. apply stop_bind. rewrite am_parse_value_S.
  go. apply stop_bind.
  match goal with |- fst ((if ?x then _ else _) _) = _ => change x with false; cbv iota end.
  match goal with |- fst ((if ?x then _ else _) _) = _ => change x with false; cbv iota end.
  match goal with |- fst ((if ?x then _ else _) _) = _ => change x with false; cbv iota end.
  match goal with |- fst ((if ?x then _ else _) _) = _ => change x with false; cbv iota end.
  match goal with |- fst ((if ?x then _ else _) _) = _ => change x with true; cbv iota end.
  rewrite am_parse_include_S. match goal with |- fst ((if ?x then _ else _) _) = _ => change x with false; cbv iota end.
  go. go. go. match goal with |- fst ((if negb ?b then _ else _) _) = _ => change (negb b) with false end. cbv iota.
  go. go. go. go. go. match goal with |- fst ((if negb ?b then _ else _) _) = _ => change (negb b) with false end. cbv iota.
  go. match goal with |- fst ((if negb ?b then _ else _) _) = _ => change (negb b) with false end. cbv iota.
  apply HF; reflexivity.
Qed.

(** Two files /p and /q, both with the text of [self]; b is a link to one of them. *)
Definition link (i : nat) : fsys :=
  mkfs (fun p => if str_eqb p (lit "b") then Some i else None) [mkfe (Some (lit "/p")) (inl self); mkfe (Some (lit "/q")) (inl self)] (fun _ => lit "gone").
(** b leads to /q whenever the file that is being read is looked up, and to /p at all other times. *)
Definition flip (t : nat) : fsys := link (if Nat.eqb (t mod 4) 2 then 1 else 0).
Lemma flip_now k (sh : shared) : (k < 4)%nat -> now flip k sh = link (if Nat.eqb k 2 then 1 else 0).
Proof.
  intros L. unfold now, flip, tick. replace (4 * List.length (sh_log sh) + k)%nat with (k + List.length (sh_log sh) * 4)%nat by Lia.lia.
  rewrite Nat.mod_add by discriminate. rewrite Nat.mod_small by exact L. reflexivity.
Qed.
Lemma flip_text k : (forall sh, sh_vals sh = [] -> (sh_open sh = [] \/ sh_open sh = [lit "/q"]) -> fst (load_amid flip k IObj (lit "b") sh) = NoFuel) ->
  forall sh, sh_vals sh = [] -> (sh_open sh = [] \/ sh_open sh = [lit "/q"]) ->
  fst (run_stream (am_parse_obj_stream (finish_amid flip (load_amid flip k)) (stream_fuel self)) (Some (lit "b")) self sh) = NoFuel.
Proof.
  intros IH sh V O. apply self_steps. intros l c s Es Ef.
    assert (S1 : forall sh, sh_vals sh = [] -> sh_open sh = [lit "/q"] -> forall B (h : value -> M B) s, s_sh s = sh -> fst (bind (run_include (load_amid flip k) IObj (lit "b")) h s) = NoFuel).
    { intros sh' V' O' B h s' E'. apply stop_bind. unfold run_include. specialize (IH (s_sh s')). rewrite E' in *. specialize (IH V' (or_intror O')).
      destruct (load_amid _ _ _ _ _) as [o h']. exact IH. }
    unfold finish_amid. eapply go_bind; [unfold getfile; rewrite Ef; reflexivity|].
    eapply go_bind; [reflexivity|]. cbv zeta. eapply go_bind; [reflexivity|].
    change (beside (lit "b") (lit "b")) with (lit "b"). rewrite !flip_now by Lia.lia.
    match goal with |- fst ((if ?x then _ else _) _) = _ => change x with false; cbv iota end.
    match goal with |- fst ((match ?x with Some _ => _ | None => _ end) _) = _ => change x with (Some (lit "/p")); cbv iota end.
    eapply go_bind; [reflexivity|]. eapply go_bind; [reflexivity|].
    eapply go_bind.
    { unfold bind at 1, get_sh at 1. rewrite flip_now by Lia.lia. 
      match goal with |- (match ?x with Some _ => _ | None => _ end) _ = _ => change x with (Some (lit "/q")); cbv iota end. reflexivity. }
    eapply go_bind; [reflexivity|].
    cbn [s_sh set_sh sh_open sh_vals log_ev]. rewrite Es.
    assert (O2 : (if mem_str (lit "/q") (sh_open sh) then sh_open sh else lit "/q" :: sh_open sh) = [lit "/q"]) by (destruct O as [E0|E0]; rewrite E0; reflexivity).
    rewrite O2, V. match goal with |- fst ((if ?x then _ else _) _) = _ => change x with false; cbv iota end.
    apply stop_bind. cbn [assoc]. eapply S1; [| |reflexivity]; cbn [s_sh set_sh sh_open sh_vals]; rewrite ?Es; auto.
Qed.
Lemma flip_load k : forall sh, sh_vals sh = [] -> (sh_open sh = [] \/ sh_open sh = [lit "/q"]) -> fst (load_amid flip k IObj (lit "b") sh) = NoFuel.
Proof.
  induction k as [|k IH]; intros sh V O; [reflexivity|].
  pose proof (flip_text k IH (log_ev (EOpen (Some (lit "/p"))) sh) V O) as G.
  assert (E : open_amid flip (lit "b") sh = (inl self, log_ev (EOpen (Some (lit "/p"))) sh)).
  { unfold open_amid. rewrite flip_now by Lia.lia. reflexivity. }
  cbn [load_amid]. rewrite E. destruct (run_stream _ _ _ _) as [o h]. cbn [fst] in G. rewrite G. reflexivity.
Qed.
(** That a path does not lead to two different files during a load is needed.  A file that includes itself by a name that leads
    now to one file, now to another is read again and again, without end: the load overflows the stack.  The files stay as they are
    and there is a file at the same paths all the time; and in each of the file systems the load ends, with an error. *)
Theorem C71_changing_link_refuted : exists H path, (forall t, fs_files (H t) = fs_files (H 0%nat) /\ forall p, is_file (H t) p = is_file (H 0%nat) p) /\
  (forall t g, exists e, from_file (H t) g path = Some (OErr e)) /\
  forall k g, fst (parse_obj_file_amid H k g path) = NoFuel.
Proof.
  exists flip, (lit "b"). split; [|split].
  - intros t. split; [reflexivity|]. intros p. unfold is_file, fs_entry, flip, link. cbn [fs_resolve fs_files].
    destruct (path_parent p); [|reflexivity]. destruct (str_eqb p (lit "b")); [|reflexivity]. destruct (Nat.eqb (t mod 4) 2); reflexivity.
  - intros t g. unfold flip. destruct (Nat.eqb (t mod 4) 2); eexists; vm_compute; reflexivity.
  - intros k g. pose proof (flip_text k (flip_load k) (log_ev (EOpen (Some (lit "/p"))) (init_sh g)) eq_refl (or_introl eq_refl)) as G.
    assert (E : open_amid flip (lit "b") (init_sh g) = (inl self, log_ev (EOpen (Some (lit "/p"))) (init_sh g))).
    { unfold open_amid. rewrite flip_now by Lia.lia. reflexivity. }
    unfold parse_obj_file_amid. rewrite E. exact G.
Qed.
End Links.

(** ** Examples *)
Section Ex.
Context `{U : Unicode}.
(** [w1] without the file at [p] *)
Definition without (p : str) : fsys := mkfs (fun q => if str_eqb q p then None else fs_resolve w1 q) (fs_files w1) (fs_open_err w1).
Definition with_and_without (p : str) (there : nat -> bool) (t : nat) : fsys := if there t then w1 else without p.
Lemma with_and_without_ok p there : come_and_go w1 (with_and_without p there).
Proof.
  intros t. unfold with_and_without. destruct (there t); [split; eauto|]. split; [|reflexivity].
  intros q i e. unfold fs_entry, without. cbn [fs_resolve fs_files]. destruct (path_parent q); [|discriminate]. destruct (str_eqb q p); [discriminate|eauto].
Qed.
(** b is created after a was read, and deleted after b was read; a is deleted after the include was found: the load succeeds *)
Example C71_ex :
  (exists o, from_file w1 g0 (lit "a") = Some (OOk o) /\
     from_file_amid (with_and_without (lit "b") (fun t => Nat.leb 4 t && Nat.leb t 11)) (inc_fuel w1) g0 (lit "a") = Some (OOk o) /\
     from_file_amid (with_and_without (lit "a") (fun t => Nat.leb t 10)) (inc_fuel w1) g0 (lit "a") = Some (OOk o)) /\
  is_file w1 (lit "a") = true /\ canon w1 (lit "a") <> None.
Proof.
  split; [|split; [reflexivity|discriminate]]. eexists. split; [vm_compute; reflexivity|]. split; vm_compute; reflexivity.
Qed.
(** b is missing when it is looked for, or when its canonical path is asked for; b is missing when it is opened; a is missing when its canonical path is asked for *)
Example C71_ex_lost :
  from_file_amid (with_and_without (lit "b") (fun t => negb (Nat.eqb t 4))) (inc_fuel w1) g0 (lit "a") =
    Some (OErr (over_from_parse (mkperr (Some (lit "a")) (InvalidIncludePath (lit "b") 1 5)))) /\
  from_file_amid (with_and_without (lit "b") (fun t => negb (Nat.eqb t 5))) (inc_fuel w1) g0 (lit "a") =
    Some (OErr (over_from_parse (mkperr (Some (lit "a")) (InvalidIncludePath (lit "b") 1 5)))) /\
  (exists m, from_file_amid (with_and_without (lit "b") (fun t => negb (Nat.eqb t 11))) (inc_fuel w1) g0 (lit "a") = Some (OErr m)) /\
  from_file_amid (with_and_without (lit "a") (fun t => negb (Nat.eqb t 10))) (inc_fuel w1) g0 (lit "a") = None.
Proof.
  split; [vm_compute; reflexivity|]. split; [vm_compute; reflexivity|]. split; [eexists|]; vm_compute; reflexivity.
Qed.
End Ex.
