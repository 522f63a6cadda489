(** * PropChanging: files that change during a load (C68). *)
From Verif Require Export Changing PropLoad.
From Coq Require String.
Import String.StringSyntax.
Open Scope N_scope.

Lemma names_refl fs : same_names fs fs. Proof. repeat split. Qed.
Lemma names_sym a b : same_names a b -> same_names b a.
Proof. intros (A & B & C). split; [|split]; congruence. Qed.
Lemma names_trans a b c : same_names a b -> same_names b c -> same_names a c.
Proof. intros (A & B & C) (A' & B' & C'). split; [|split]; congruence. Qed.
Lemma names_entry fs fs' p : same_names fs fs' ->
  match fs_entry fs p, fs_entry fs' p with
  | Some (i, e), Some (i', e') => i = i' /\ fe_canon e = fe_canon e'
  | None, None => True
  | _, _ => False
  end.
Proof.
  intros (S1 & _ & S3). unfold fs_entry. rewrite <- S1. destruct (path_parent p); [|exact I]. destruct (fs_resolve fs p) as [i|]; [|exact I].
  pose proof (f_equal (fun l => nth_error l i) S3) as E. cbn in E. rewrite !nth_error_map in E.
  destruct (nth_error (fs_files fs) i), (nth_error (fs_files fs') i); cbn in E; try discriminate; auto. injection E; auto.
Qed.
Lemma names_is_file fs fs' : same_names fs fs' -> forall p, is_file fs p = is_file fs' p.
Proof. intros S p. pose proof (names_entry fs fs' p S) as H. unfold is_file. destruct (fs_entry fs p) as [[]|], (fs_entry fs' p) as [[]|]; tauto. Qed.
Lemma names_canon fs fs' : same_names fs fs' -> forall p, canon fs p = canon fs' p.
Proof. intros S p. pose proof (names_entry fs fs' p S) as H. unfold canon. destruct (fs_entry fs p) as [[]|], (fs_entry fs' p) as [[]|]; tauto. Qed.
Lemma names_fuel fs fs' : same_names fs fs' -> inc_fuel fs' = inc_fuel fs.
Proof. intros (_ & _ & E). unfold inc_fuel. f_equal. apply (f_equal (@List.length _)) in E. rewrite !map_length in E. auto. Qed.

(** the newest event is the opening of a file whose contents are not those in [fs] *)
Definition stale (H : nat -> fsys) (fs : fsys) (b : list event) : Prop :=
  exists p rest, b = EOpen (canon fs p) :: rest /\ is_file fs p = true /\ text_at fs p <> text_at (H (moment rest)) p.
Section P.
Context `{U : Unicode}.
Section One.
Variable H : nat -> fsys.
Hypothesis C : only_contents_change H.
Variable fs : fsys.
Hypothesis S : same_names (H 0%nat) fs.
Lemma during_open p sh : same_or (stale H fs) (sh_log sh) (lgh (open_during H p sh)) (lgh (open_file fs p sh)) (open_during H p sh) (open_file fs p sh).
Proof.
  set (n := moment (sh_log sh)). assert (Sn : same_names (H n) fs) by (eapply names_trans; [apply names_sym, C|exact S]).
  pose proof (names_entry _ _ p Sn) as E. unfold open_during. fold n. unfold open_file, lgh.
  destruct (fs_entry (H n) p) as [[i e]|] eqn:E1, (fs_entry fs p) as [[i' e']|] eqn:E2; try contradiction.
  - destruct E as [-> E]. rewrite E.
    assert (L : forall r : str + str, sh_log (snd (match r with inl contents => (inl contents, log_ev (EOpen (fe_canon e')) sh)
       | inr msg => (@inr str perr (mkperr None (IoErrorKind msg)), log_ev (EOpen (fe_canon e')) sh) end)) = EOpen (fe_canon e') :: sh_log sh).
    { intros []; reflexivity. }
    rewrite !L. split; [apply ext_one|]. split; [apply ext_one|].
    assert (dec : {fe_read e = fe_read e'} + {fe_read e <> fe_read e'}) by (repeat decide equality).
    destruct dec as [Q|Q]; [left; rewrite Q; reflexivity|].
    right. exists (EOpen (fe_canon e') :: sh_log sh). split; [|split; apply ext_refl].
    exists p, (sh_log sh). unfold canon, is_file, text_at. rewrite E2. fold n. rewrite E1. cbn. split; [reflexivity|]. split; [reflexivity|]. congruence.
  - split; [apply ext_refl|]. split; [apply ext_refl|]. left. destruct Sn as (_ & -> & _). reflexivity.
Qed.
Lemma during_str g text : same_or (stale H fs) [] (lgh (parse_obj_str_during H g text)) (lgh (parse_obj_str fs g text)) (parse_obj_str_during H g text) (parse_obj_str fs g text).
Proof.
  rewrite <- (str_with_open fs). unfold parse_obj_str_during.
  exact (loc_str_with _ _ _ _ _ (names_is_file _ _ S) (names_canon _ _ S) during_open (names_fuel _ _ S) g text).
Qed.
Lemma during_file g path : same_or (stale H fs) [] (lgh (parse_obj_file_during H g path)) (lgh (parse_obj_file fs g path)) (parse_obj_file_during H g path) (parse_obj_file fs g path).
Proof.
  rewrite <- (file_with_open fs). unfold parse_obj_file_during.
  exact (loc_file_with _ _ _ _ _ (names_is_file _ _ S) (names_canon _ _ S) during_open (names_fuel _ _ S) g path).
Qed.
Lemma snapshot_not_stale l l' : snapshot H l fs -> ~ diverged (stale H fs) l l'.
Proof. intros [_ N] (b & (p & rest & -> & F & Q) & [more E] & _). apply Q. exact (N p more rest F E). Qed.
End One.

(** ** The snapshot exists *)
Lemma oeq (a b : option str) : {a = b} + {a <> b}.
Proof. decide equality. apply (list_eq_dec N.eq_dec). Defined.
(** the moment of the first opening of [o] *)
Fixpoint first_open (o : option str) (log : list event) : nat :=
  match log with
  | [] => 0%nat
  | e :: rest => if in_dec oeq o (opens rest) then first_open o rest else moment rest
  end.
Definition at_first (H : nat -> fsys) (log : list event) (x : nat * fentry) : fentry :=
  let '(i, e) := x in
  mkfe (fe_canon e) (match nth_error (fs_files (H (if in_dec oeq (fe_canon e) (opens log) then first_open (fe_canon e) log else 0%nat))) i with
                     | Some e' => fe_read e' | None => fe_read e end).
Definition photo (H : nat -> fsys) (log : list event) : fsys :=
  mkfs (fs_resolve (H 0%nat)) (map (at_first H log) (combine (seq 0 (List.length (fs_files (H 0%nat)))) (fs_files (H 0%nat)))) (fs_open_err (H 0%nat)).
Lemma combine_seq {A} (l : list A) : forall n i, nth_error (combine (seq n (List.length l)) l) i = option_map (fun a => ((n + i)%nat, a)) (nth_error l i).
Proof.
  induction l as [|a l IH]; intros n [|i]; cbn; auto.
  - rewrite Nat.add_0_r. reflexivity.
  - rewrite IH. destruct (nth_error l i); cbn; [|reflexivity]. do 2 f_equal. lia.
Qed.
Lemma at_first_canon H log l : forall n, map fe_canon l = map (fun x => fe_canon (at_first H log x)) (combine (seq n (List.length l)) l).
Proof. induction l as [|e l IH]; intros n; cbn; [reflexivity|]. f_equal. apply IH. Qed.
Lemma photo_names H log : same_names (H 0%nat) (photo H log).
Proof.
  split; [reflexivity|]. split; [reflexivity|]. cbn. rewrite map_map. apply at_first_canon.
Qed.
Lemma photo_text H log p : only_contents_change H -> is_file (H 0%nat) p = true ->
  text_at (photo H log) p = text_at (H (if in_dec oeq (canon (H 0%nat) p) (opens log) then first_open (canon (H 0%nat) p) log else 0%nat)) p.
Proof.
  intros C F. unfold is_file, text_at, canon in *. destruct (fs_entry (H 0%nat) p) as [[i e]|] eqn:E; [|discriminate].
  set (t := if in_dec _ _ _ then _ else _). pose proof (names_entry _ _ p (C t)) as Q. rewrite E in Q.
  destruct (fs_entry (H t) p) as [[i' e']|] eqn:E'; [|contradiction]. destruct Q as [<- Q].
  unfold fs_entry in *. cbn [photo fs_resolve fs_files]. destruct (path_parent p); [|discriminate].
  destruct (fs_resolve (H 0%nat) p) as [j|]; [|discriminate]. destruct (nth_error (fs_files (H 0%nat)) j) as [x|] eqn:X; [|discriminate]. injection E as -> ->.
  rewrite nth_error_map, combine_seq, X. cbn [option_map at_first Nat.add snd fe_read]. fold t.
  destruct (fs_resolve (H t) p) as [j'|]; [|discriminate]. destruct (nth_error (fs_files (H t)) j') as [x'|] eqn:X'; [|discriminate]. injection E' as -> ->.
  rewrite X'. reflexivity.
Qed.
Lemma opens_app a b : opens (a ++ b) = opens a ++ opens b.
Proof. apply flat_map_app. Qed.
Lemma first_open_split o later earlier : ~ In o (opens earlier) -> first_open o (later ++ EOpen o :: earlier) = moment earlier.
Proof.
  intros N. induction later as [|e later IH]; cbn [app first_open].
  - destruct (in_dec _ o (opens earlier)); [contradiction|reflexivity].
  - destruct (in_dec _ o _) as [I|I]; [exact IH|]. exfalso. apply I. rewrite opens_app. apply in_or_app. right. left. reflexivity.
Qed.
Lemma nodup_before o later earlier : NoDup (opens (later ++ EOpen o :: earlier)) -> ~ In o (opens earlier).
Proof. rewrite opens_app. cbn. intros N I. apply NoDup_remove_2 in N. apply N. apply in_or_app. auto. Qed.
Lemma photo_opened H log p later earlier : only_contents_change H -> is_file (H 0%nat) p = true ->
  log = later ++ EOpen (canon (H 0%nat) p) :: earlier -> ~ In (canon (H 0%nat) p) (opens earlier) ->
  text_at (photo H log) p = text_at (H (moment earlier)) p.
Proof.
  intros C F E N. rewrite photo_text by assumption. destruct (in_dec _ _ _) as [I|I].
  - rewrite E, first_open_split by assumption. reflexivity.
  - exfalso. apply I. rewrite E, opens_app. apply in_or_app. right. left. reflexivity.
Qed.
(** If the load of the photo opens no file twice, it is the load that was photographed. *)
Lemma photo_not_stale H l l' : only_contents_change H -> NoDup (opens l') -> ~ diverged (stale H (photo H l)) l l'.
Proof.
  intros C N (b & (p & rest & -> & F & Q) & [m1 E1] & [m2 E2]).
  rewrite <- (names_canon _ _ (photo_names H l)) in E1, E2. rewrite <- (names_is_file _ _ (photo_names H l)) in F.
  apply Q. eapply photo_opened; eauto. rewrite E2 in N. apply nodup_before in N. exact N.
Qed.
Lemma photo_snapshot H log : only_contents_change H -> NoDup (opens log) -> snapshot H log (photo H log).
Proof.
  intros C N. split; [apply photo_names|]. intros p later earlier F E.
  rewrite <- (names_canon _ _ (photo_names H log)) in E. rewrite <- (names_is_file _ _ (photo_names H log)) in F.
  eapply photo_opened; eauto. rewrite E in N. apply nodup_before in N. exact N.
Qed.
Lemma photo_unopened H log p : only_contents_change H -> ~ In (EOpen (canon (H 0%nat) p)) log -> text_at (photo H log) p = text_at (H 0%nat) p.
Proof.
  intros C N. destruct (is_file (H 0%nat) p) eqn:F.
  - rewrite photo_text by assumption. destruct (in_dec _ _ _) as [I|I]; [|reflexivity]. exfalso. apply N.
    unfold opens in I. apply in_flat_map in I as (e & I & K). destruct e; cbn in K; try contradiction. destruct K as [->|[]]. exact I.
  - pose proof (names_is_file _ _ (photo_names H log) p) as E. rewrite F in E. unfold is_file, text_at in *.
    destruct (fs_entry (H 0%nat) p); [discriminate|]. destruct (fs_entry (photo H log) p); [discriminate|reflexivity].
Qed.

(** C68.  While a load runs, other programs may write to the files, before and after they are read; as long as paths and links stay, there is one file
    system (a snapshot: in each file what was in it when it was opened; for all files not opened, what was in it at the
    beginning) such that the load does exactly what it does on it if nothing changes: result, error, events. *)
Theorem C68_snapshot_exists H g : only_contents_change H ->
  (forall text, exists fs, snapshot H (sh_log (snd (parse_obj_str_during H g text))) fs /\
     (forall p, ~ In (EOpen (canon fs p)) (sh_log (snd (parse_obj_str_during H g text))) -> text_at fs p = text_at (H 0%nat) p) /\
     parse_obj_str fs g text = parse_obj_str_during H g text) /\
  (forall path, (is_file (H 0%nat) path = true -> canon (H 0%nat) path <> None) ->
     exists fs, snapshot H (sh_log (snd (parse_obj_file_during H g path))) fs /\
     (forall p, ~ In (EOpen (canon fs p)) (sh_log (snd (parse_obj_file_during H g path))) -> text_at fs p = text_at (H 0%nat) p) /\
     parse_obj_file fs g path = parse_obj_file_during H g path).
Proof.
  intros C.
  assert (A : forall r r' : outcome obj * shared, NoDup (opens (sh_log (snd r'))) ->
    same_or (stale H (photo H (sh_log (snd r)))) [] (lgh r) (lgh r') r r' ->
    exists fs, snapshot H (sh_log (snd r)) fs /\ (forall p, ~ In (EOpen (canon fs p)) (sh_log (snd r)) -> text_at fs p = text_at (H 0%nat) p) /\
      fs = photo H (sh_log (snd r)) /\ r' = r).
  { intros r r' N (_ & _ & E). exists (photo H (sh_log (snd r))).
    destruct E as [E|E]; [|exfalso; exact (photo_not_stale _ _ _ C N E)]. subst r'.
    split; [apply photo_snapshot; auto|]. split; [|auto]. intros p K. apply photo_unopened; auto.
    rewrite <- (names_canon _ _ (photo_names H (sh_log (snd r)))) in K. exact K. }
  split.
  - intros text. set (r := parse_obj_str_during H g text). set (fs := photo H (sh_log (snd r))).
    assert (N : NoDup (opens (sh_log (snd (parse_obj_str fs g text))))).
    { eapply C23_each_file_opened_once. left. exists text. do 2 eexists. split; [apply surjective_pairing|]. split; reflexivity. }
    destruct (A r _ N (during_str H C fs (photo_names H _) g text)) as (fs' & A1 & A2 & E & A4). subst fs'. exists fs. auto.
  - intros path P. set (r := parse_obj_file_during H g path). set (fs := photo H (sh_log (snd r))).
    assert (N : NoDup (opens (sh_log (snd (parse_obj_file fs g path))))).
    { eapply C23_each_file_opened_once. right. exists path. do 2 eexists. split; [apply surjective_pairing|]. split; [reflexivity|].
      split; [|reflexivity]. destruct (C03_from_file_returns fs g path) as [x R].
      { unfold fs. rewrite <- (names_canon _ _ (photo_names H _)), <- (names_is_file _ _ (photo_names H _)). exact P. }
      unfold from_file in R. intros K. rewrite K in R. discriminate. }
    destruct (A r _ N (during_file H C fs (photo_names H _) g path)) as (fs' & A1 & A2 & E & A4). subst fs'. exists fs. auto.
Qed.
(** Every such file system gives that load: only what is in a file at the moment it is opened counts. *)
Theorem C68_only_that_moment_counts H g fs : only_contents_change H ->
  (forall text, snapshot H (sh_log (snd (parse_obj_str_during H g text))) fs -> parse_obj_str fs g text = parse_obj_str_during H g text) /\
  (forall path, snapshot H (sh_log (snd (parse_obj_file_during H g path))) fs -> parse_obj_file fs g path = parse_obj_file_during H g path).
Proof.
  intros C. split; intros x Sn.
  - destruct (during_str H C fs (proj1 Sn) g x) as (_ & _ & [E|E]); [exact E|]. exfalso. eapply snapshot_not_stale; [exact Sn|exact E].
  - destruct (during_file H C fs (proj1 Sn) g x) as (_ & _ & [E|E]); [exact E|]. exfalso. eapply snapshot_not_stale; [exact Sn|exact E].
Qed.
(** So what is known of loads (C01-C67) carries over; for example: the load returns (Ok or Err, no panic), and it opens no file twice. *)
Corollary C68_returns H g : only_contents_change H ->
  (forall text, exists r, from_str_during H g text = Some r) /\
  (forall path, (is_file (H 0%nat) path = true -> canon (H 0%nat) path <> None) -> exists r, from_file_during H g path = Some r).
Proof.
  intros C. destruct (C68_snapshot_exists H g C) as [S1 S2]. split.
  - intros text. destruct (S1 text) as (fs & _ & _ & E). unfold from_str_during. rewrite <- E. apply C03_from_str_returns.
  - intros path P. destruct (S2 path P) as (fs & Sn & _ & E). unfold from_file_during. rewrite <- E. apply C03_from_file_returns.
    destruct Sn as [Sn _]. rewrite <- (names_canon _ _ Sn), <- (names_is_file _ _ Sn). exact P.
Qed.
Corollary C68_results H g : only_contents_change H ->
  (forall text, exists fs, snapshot H (sh_log (snd (parse_obj_str_during H g text))) fs /\ from_str_during H g text = from_str fs g text) /\
  (forall path, (is_file (H 0%nat) path = true -> canon (H 0%nat) path <> None) ->
     exists fs, snapshot H (sh_log (snd (parse_obj_file_during H g path))) fs /\ from_file_during H g path = from_file fs g path).
Proof.
  intros C. destruct (C68_snapshot_exists H g C) as [S1 S2]. split.
  - intros text. destruct (S1 text) as (fs & Sn & _ & E). exists fs. split; [exact Sn|]. unfold from_str_during, from_str. congruence.
  - intros path P. destruct (S2 path P) as (fs & Sn & _ & E). exists fs. split; [exact Sn|]. unfold from_file_during, from_file. congruence.
Qed.
Corollary C68_opened_once H g : only_contents_change H ->
  (forall text, NoDup (opens (sh_log (snd (parse_obj_str_during H g text))))) /\
  (forall path, (is_file (H 0%nat) path = true -> canon (H 0%nat) path <> None) -> NoDup (opens (sh_log (snd (parse_obj_file_during H g path))))).
Proof.
  intros C. destruct (C68_snapshot_exists H g C) as [S1 S2]. destruct (C68_returns H g C) as [_ R]. split.
  - intros text. destruct (S1 text) as (fs & _ & _ & <-). eapply C23_each_file_opened_once. left. exists text. do 2 eexists. split; [apply surjective_pairing|]. split; reflexivity.
  - intros path P. destruct (S2 path P) as (fs & _ & _ & E). destruct (R path P) as [r K]. rewrite <- E.
    eapply C23_each_file_opened_once. right. exists path. do 2 eexists. split; [apply surjective_pairing|]. split; [reflexivity|].
    split; [|reflexivity]. unfold from_file_during in K. rewrite <- E in K. intros K'. rewrite K' in K. discriminate.
Qed.
(** If the files are, when they are opened, as they were at the beginning, the changes are not noticed. *)
Corollary C68_unnoticed H g : only_contents_change H ->
  (forall text, (forall p later earlier, sh_log (snd (parse_obj_str_during H g text)) = later ++ EOpen (canon (H 0%nat) p) :: earlier ->
       text_at (H (moment earlier)) p = text_at (H 0%nat) p) -> parse_obj_str_during H g text = parse_obj_str (H 0%nat) g text) /\
  (forall path, (forall p later earlier, sh_log (snd (parse_obj_file_during H g path)) = later ++ EOpen (canon (H 0%nat) p) :: earlier ->
       text_at (H (moment earlier)) p = text_at (H 0%nat) p) -> parse_obj_file_during H g path = parse_obj_file (H 0%nat) g path).
Proof.
  intros C. destruct (C68_only_that_moment_counts H g (H 0%nat) C) as [A B].
  split; intros x K; symmetry; [apply A|apply B]; (split; [apply names_refl|]); intros p later earlier _ E; symmetry; eauto.
Qed.
(** If nothing changes, these are the functions of Parser.v. *)
Corollary C68_nothing_changes H g : (forall n, H n = H 0%nat) ->
  (forall text, from_str_during H g text = from_str (H 0%nat) g text) /\ (forall path, from_file_during H g path = from_file (H 0%nat) g path).
Proof.
  intros E. assert (C : only_contents_change H) by (intros n; rewrite (E n); apply names_refl).
  destruct (C68_unnoticed H g C) as [A B].
  split; intros x; unfold from_str_during, from_file_during, from_str, from_file; [rewrite A|rewrite B]; try reflexivity;
    intros p later earlier _; rewrite (E (moment earlier)); reflexivity.
Qed.

(** The condition on names is needed: if the file that is being parsed is removed or renamed before an include in it is
    reached, and the included file is still there, the load panics ([canonicalize().unwrap()], parser.rs:1124).
    [fs] is the file system when the include is reached. *)
Theorem C68_removed_file_panics fs li ty name line col s file : s_file s = Some file -> path_parent file <> None ->
  is_file fs (beside file name) = true -> canon fs (beside file name) <> None -> canon fs file = None ->
  fst (finish_include fs li ty name line col s) = Panic.
Proof.
  intros F P I N K. unfold finish_include, bind, getfile, assert_, has_parent. rewrite F. destruct (path_parent file); [|congruence].
  cbn. rewrite I. cbn. destruct (canon fs (beside file name)); [|congruence]. rewrite K. reflexivity.
Qed.
End P.
From Verif Require Import PropFiles.
(** ** Examples *)
Section Ex.
Context `{U : Unicode}.
(** The file b is rewritten after a was opened: the load sees the old a and the new b. *)
Definition h1 (n : nat) : fsys := match n with O => w1 | S _ => world (lit "x: 0") (lit "z: 6") (lit "u: 1") end.
Example C68_ex : only_contents_change h1 /\
  from_file_during h1 g0 (lit "a") = from_file (world text_a (lit "z: 6") []) g0 (lit "a") /\
  from_file_during h1 g0 (lit "a") <> from_file (h1 0%nat) g0 (lit "a") /\
  from_file_during h1 g0 (lit "a") <> from_file (h1 1%nat) g0 (lit "a").
Proof.
  split; [intros [|n]; repeat split|]. split; [vm_compute; reflexivity|]. split; vm_compute; discriminate.
Qed.
(** a, which includes b, is removed after it was opened *)
Example C68_ex_removed : exists fs, fs_files fs = fs_files w1 /\ is_file fs (lit "a") = false /\ is_file fs (lit "b") = true /\
  fst (run_stream (parse_obj_stream fs (load_file fs (inc_fuel fs)) (stream_fuel text_a)) (Some (lit "a")) text_a (init_sh g0)) = Panic.
Proof.
  exists (mkfs (fun p => if str_eqb p (lit "a") then None else fs_resolve w1 p) (fs_files w1) (fs_open_err w1)).
  split; [reflexivity|]. split; [reflexivity|]. split; vm_compute; reflexivity.
Qed.
End Ex.
