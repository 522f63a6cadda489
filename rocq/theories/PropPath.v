(** * PropPath: C49 (which file an include names). *)
From Verif Require Export Path PropLoad PropInclude.
From Coq Require String.
Import String.StringSyntax.
Open Scope N_scope.

(** ** What a path means to the operating system *)
Section Tree.
(** A directory tree as the operating system shows it: [lookup d s] is what the name [s] leads to from the directory [d]
    (links followed; [..] is a name like any other). *)
Variable node : Type.
Variable lookup : node -> str -> option node.
Variables (root cwd : node).

(** A path is a sequence of segments separated by [/]; empty segments and dots lead nowhere. *)
Fixpoint walk (n : node) (segs : list str) : option node :=
  match segs with
  | [] => Some n
  | s :: segs' =>
      if seg_skipped s then walk n segs'
      else match lookup n s with Some m => walk m segs' | None => None end
  end.
Definition absolute (p : str) : Prop := exists p', p = c_slash :: p'.
Definition start (p : str) : node := match p with c :: _ => if c =? c_slash then root else cwd | [] => cwd end.
Definition leads_to (p : str) : option node := walk (start p) (path_split p).

(** [found_in f dir name]: the path [f] leads to what [name] is in the directory [dir]. *)
Definition found_in (f : str) (dir : node) (name : str) : Prop :=
  exists before after, path_split f = before ++ name :: after /\ walk (start f) before = Some dir /\
    seg_skipped name = false /\ Forall (fun s => seg_skipped s = true) after.

Lemma walk_app l1 l2 : forall n, walk n (l1 ++ l2) = match walk n l1 with Some m => walk m l2 | None => None end.
Proof.
  induction l1 as [|s l1 IH]; intros n; cbn; auto. destruct (seg_skipped s); auto. destruct (lookup n s); auto.
Qed.
Lemma walk_skipped l : Forall (fun s => seg_skipped s = true) l -> forall n, walk n l = Some n.
Proof. induction 1 as [|s l H _ IH]; intros n; cbn; auto. rewrite H. auto. Qed.
Lemma found_leads f dir name : found_in f dir name -> leads_to f = lookup dir name.
Proof.
  intros (b & a & E & Wd & Nn & A). unfold leads_to. rewrite E, walk_app, Wd. cbn. rewrite Nn.
  destruct (lookup dir name) as [m|]; auto. apply walk_skipped; auto.
Qed.

(** *** Segments *)
Lemma split_nonempty p : path_split p <> [].
Proof. destruct p as [|c p]; cbn; [discriminate|]. destruct (c =? c_slash); [discriminate|]. destruct (path_split p); discriminate. Qed.
Lemma split_sep a b : path_split (a ++ c_slash :: b) = path_split a ++ path_split b.
Proof.
  induction a as [|c a IH]; [reflexivity|]. cbn [app path_split]. rewrite IH.
  destruct (c =? c_slash); [reflexivity|]. pose proof (split_nonempty a). destruct (path_split a); [contradiction|reflexivity].
Qed.
Lemma split_noslash s : Forall (fun c => c <> c_slash) s -> path_split s = [s].
Proof.
  induction 1 as [|c s H _ IH]; [reflexivity|]. cbn. destruct (N.eqb_spec c 47); [contradiction|]. rewrite IH. reflexivity.
Qed.
Lemma split_segs p : Forall (fun s => Forall (fun c => c <> c_slash) s) (path_split p).
Proof.
  induction p as [|c p IH]; cbn; [repeat constructor|]. destruct (N.eqb_spec c 47); [constructor; auto|].
  destruct (path_split p); inversion IH; subst; repeat constructor; auto.
Qed.
Lemma split_unsplit l : l <> [] -> Forall (fun s => Forall (fun c => c <> c_slash) s) l -> path_split (path_unsplit l) = l.
Proof.
  intros N F. induction F as [|s l H F IH]; [contradiction|]. destruct l as [|t l]; [apply split_noslash; auto|].
  change (path_unsplit (s :: t :: l)) with (s ++ c_slash :: path_unsplit (t :: l)). rewrite split_sep, IH by discriminate.
  rewrite split_noslash; auto.
Qed.
Lemma unsplit_cons s l : l <> [] -> path_unsplit (s :: l) = s ++ c_slash :: path_unsplit l.
Proof. destruct l; [contradiction|reflexivity]. Qed.
(** [path_split] gives the segments: the path is they with a separator between each two, and none contains one. *)
Theorem C49_segments p : path_unsplit (path_split p) = p /\ Forall (fun s => ~ In c_slash s) (path_split p).
Proof.
  split.
  - induction p as [|c p IH]; [reflexivity|]. cbn [path_split]. destruct (N.eqb_spec c 47).
    + rewrite unsplit_cons by apply split_nonempty. rewrite IH. subst. reflexivity.
    + pose proof (split_nonempty p). destruct (path_split p) as [|s l]; [contradiction|].
      rewrite <- IH. destruct l; reflexivity.
  - eapply Forall_impl; [|apply split_segs]. cbn. intros s F I. rewrite Forall_forall in F. exact (F _ I eq_refl).
Qed.

Lemma skip_walk l : forall n, walk n (rev (skip_segs l)) = walk n (rev l).
Proof.
  induction l as [|s l IH]; intros n; cbn; auto. destruct (seg_skipped s) eqn:E; auto.
  rewrite IH, walk_app. destruct (walk n (rev l)); cbn; auto. rewrite E. reflexivity.
Qed.
Lemma skip_app a l : Forall (fun s => seg_skipped s = true) a -> skip_segs (a ++ l) = skip_segs l.
Proof. induction 1 as [|s a H _ IH]; cbn; auto. rewrite H. auto. Qed.
Lemma skip_suffix l : exists a, l = a ++ skip_segs l /\ Forall (fun s => seg_skipped s = true) a.
Proof.
  induction l as [|s l (a & E & F)]; [exists []; auto|]. cbn. destruct (seg_skipped s) eqn:K; [|exists []; auto].
  exists (s :: a). cbn. split; [congruence|auto].
Qed.

(** The directory of [f] as a path, if its last component is a name. *)
Lemma parent_found f dir name : found_in f dir name ->
  exists d, path_parent f = Some d /\ (d = [] \/ has_root d = has_root f) /\ leads_to d = Some dir /\
    (d = [] -> has_root f = false).
Proof.
  intros (b & a & E & Wd & Nn & A). unfold path_parent.
  assert (Ra : Forall (fun s => seg_skipped s = true) (rev a)) by (apply Forall_rev; auto).
  destruct f as [|c f]; [destruct b as [|? [|]]; inversion E; subst; discriminate|].
  cbn [has_root]. destruct (N.eqb_spec c c_slash) as [->|Hc].
  - (* absolute *)
    cbn [orb firstn skipn include_cur_dir]. cbn in Wd.
    change (path_split (47 :: f)) with ([] :: path_split f) in E.
    destruct b as [|b0 b]; [inversion E; subst; discriminate|]. inversion E; subst. cbn in Wd.
    rewrite H1, rev_app_distr. cbn [rev]. rewrite <- app_assoc. rewrite skip_app by auto. cbn [app skip_segs]. rewrite Nn.
    eexists. split; [reflexivity|]. set (l := rev (skip_segs (rev b))).
    assert (Wl : walk root l = Some dir) by (unfold l; rewrite skip_walk, rev_involutive; auto).
    assert (Sl : Forall (fun s => Forall (fun c => c <> c_slash) s) l).
    { unfold l. apply Forall_rev. destruct (skip_suffix (rev b)) as (x & Ex & _).
      pose proof (split_segs f) as S. rewrite H1 in S. apply Forall_app in S as [S _]. apply Forall_rev in S. rewrite Ex in S.
      apply Forall_app in S as [_ S]. exact S. }
    split; [right; reflexivity|]. split; [|discriminate]. unfold leads_to.
    change (start ([47] ++ path_unsplit l)) with root. cbn [app path_split N.eqb Pos.eqb].
    destruct l as [|s l]; [exact Wl|]. cbn [walk]. change (seg_skipped []) with true. cbv iota. rewrite split_unsplit by (auto; discriminate). exact Wl.
  - assert (St : start (c :: f) = cwd). { cbn. destruct (N.eqb_spec c 47); [contradiction|reflexivity]. }
    rewrite St in Wd. cbn [orb].
    destruct (include_cur_dir (c :: f)) eqn:CD.
    + (* ./... *)
      cbn [firstn skipn]. destruct f as [|c2 f].
      { cbn in CD. apply N.eqb_eq in CD. subst c. destruct b as [|? [|]]; inversion E; subst; discriminate. }
      cbn [include_cur_dir] in CD. apply andb_true_iff in CD as [C1 C2]. apply N.eqb_eq in C1, C2. subst c c2.
      change (path_split (46 :: 47 :: f)) with ([46] :: path_split f) in E.
      destruct b as [|b0 b]; [inversion E; subst; discriminate|]. inversion E; subst. cbn in Wd.
      change (path_split (47 :: f)) with ([] :: path_split f). rewrite H1. cbn [rev]. rewrite rev_app_distr. cbn [rev].
      rewrite <- !app_assoc. rewrite skip_app by auto. cbn [app skip_segs]. rewrite Nn.
      eexists. split; [reflexivity|]. split; [right; reflexivity|]. split; [|discriminate].
      change ([[]]) with (rev [@nil N]). rewrite <- rev_app_distr. cbn [app].
      set (l := rev (skip_segs (rev ([] :: b)))).
      assert (Wl : walk cwd l = Some dir) by (unfold l; rewrite skip_walk, rev_involutive; exact Wd).
      assert (Sl : Forall (fun s => Forall (fun c => c <> c_slash) s) l).
      { unfold l. apply Forall_rev. destruct (skip_suffix (rev ([] :: b))) as (x & Ex & _).
        pose proof (split_segs f) as S. rewrite H1 in S. apply Forall_app in S as [S _].
        assert (S' : Forall (fun s => Forall (fun c => c <> c_slash) s) ([] :: b)) by (constructor; auto).
        apply Forall_rev in S'. rewrite Ex in S'. apply Forall_app in S' as [_ S']. exact S'. }
      assert (Bl : exists x, [] :: b = l ++ x).
      { unfold l. destruct (skip_suffix (rev ([] :: b))) as (x & Ex & _). apply (f_equal (@rev str)) in Ex.
        rewrite rev_involutive, rev_app_distr in Ex. exists (rev x). exact Ex. }
      unfold leads_to. change (start ([46] ++ path_unsplit l)) with cwd. clearbody l.
      destruct l as [|s l1]; [exact Wl|].
      assert (s = []) as -> by (destruct Bl as [x Bl]; inversion Bl; reflexivity).
      destruct l1 as [|s2 l2].
      { cbn. cbn in Wl. exact Wl. }
      rewrite unsplit_cons by discriminate. cbn [app].
      change (46 :: 47 :: path_unsplit (s2 :: l2)) with ([46] ++ 47 :: path_unsplit (s2 :: l2)). rewrite split_sep.
      inversion Sl; subst. rewrite split_unsplit by (auto; discriminate). exact Wl.
    + (* relative *)
      cbv iota. rewrite E, rev_app_distr. cbn [rev]. rewrite <- app_assoc. rewrite skip_app by auto. cbn [app skip_segs]. rewrite Nn.
      eexists. split; [reflexivity|]. cbn [app]. set (l := rev (skip_segs (rev b))).
      assert (Wl : walk cwd l = Some dir) by (unfold l; rewrite skip_walk, rev_involutive; auto).
      assert (Sl : Forall (fun s => Forall (fun c => c <> c_slash) s) l).
      { unfold l. apply Forall_rev. destruct (skip_suffix (rev b)) as (x & Ex & _).
        pose proof (split_segs (c :: f)) as S. rewrite E in S. apply Forall_app in S as [S _]. apply Forall_rev in S. rewrite Ex in S.
        apply Forall_app in S as [_ S]. exact S. }
      assert (Bl : exists x, b = l ++ x).
      { unfold l. destruct (skip_suffix (rev b)) as (x & Ex & _). apply (f_equal (@rev str)) in Ex.
        rewrite rev_involutive, rev_app_distr in Ex. exists (rev x). exact Ex. }
      clearbody l. destruct l as [|s l1].
      { split; [left; reflexivity|]. split; [exact Wl|auto]. }
      (* the first segment is not empty *)
      assert (B : exists b', b = s :: b') by (destruct Bl as [x ->]; eexists; reflexivity).
      destruct B as [b' ->].
      assert (Hs : exists s', s = c :: s').
      { cbn in E. destruct (N.eqb_spec c 47); [contradiction|]. destruct (path_split f); inversion E; eauto. }
      destruct Hs as [s' ->].
      match goal with |- context [path_unsplit ?x] => assert (R : exists r, path_unsplit x = c :: r) by (destruct l1; cbn; eauto) end.
      destruct R as [r R]. rewrite R. cbn [has_root].
      destruct (N.eqb_spec c 47); [contradiction|]. split; [right; reflexivity|]. split; [|discriminate].
      unfold leads_to. cbn [start]. destruct (N.eqb_spec c 47); [contradiction|]. rewrite <- R.
      rewrite split_unsplit by (auto; discriminate). exact Wl.
Qed.

(** An include path [p] in a file that was found as [f]: an absolute path is used as it is; any other path leads to what
    it leads to from the directory in which [f] was found. *)
Theorem C49_absolute f p : absolute p -> path_parent f <> None -> beside f p = p.
Proof. intros [p' ->] P. unfold beside. destruct (path_parent f); [reflexivity|contradiction]. Qed.
Theorem C49_relative f dir name p : found_in f dir name -> ~ absolute p ->
  leads_to (beside f p) = walk dir (path_split p).
Proof.
  intros F P. destruct (parent_found _ _ _ F) as (d & Pd & Hr & L & Z). unfold beside. rewrite Pd. unfold path_join.
  assert (Hp : has_root p = false).
  { destruct p as [|c p]; [reflexivity|]. cbn. destruct (N.eqb_spec c 47); [|reflexivity]. subst. exfalso. apply P. exists p. reflexivity. }
  rewrite Hp.
  assert (Sp : start p = cwd) by (destruct p as [|c p]; cbn in *; [reflexivity|rewrite Hp; reflexivity]).
  destruct (rev d) as [|c r] eqn:Er.
  - apply (f_equal (@rev N)) in Er. rewrite rev_involutive in Er. cbn in Er. subst d. unfold leads_to in *. cbn in L.
    rewrite Sp. inversion L. reflexivity.
  - assert (Ed : d = rev r ++ [c]) by (rewrite <- (rev_involutive d), Er; reflexivity).
    assert (Sd : forall x, start (d ++ x) = start d) by (intros x; destruct d; [destruct (rev r); discriminate|reflexivity]).
    destruct (N.eqb_spec c 47).
    + subst c. unfold leads_to in *. rewrite Sd. subst d. rewrite <- app_assoc. cbn [app]. rewrite split_sep, walk_app.
      rewrite split_sep, walk_app in L. destruct (walk _ (path_split (rev r))) as [m|]; [|discriminate]. cbn in L. inversion L. reflexivity.
    + unfold leads_to in *. rewrite Sd. cbn [app]. rewrite split_sep, walk_app, L. reflexivity.
Qed.
(** So it does not matter how the including file was reached: only in which directory it was found. *)
Corollary C49_same_directory f1 f2 dir n1 n2 p : found_in f1 dir n1 -> found_in f2 dir n2 -> ~ absolute p ->
  leads_to (beside f1 p) = leads_to (beside f2 p).
Proof. intros H1 H2 P. rewrite (C49_relative _ _ _ _ H1 P), (C49_relative _ _ _ _ H2 P). reflexivity. Qed.
End Tree.

(** A path that leads by a name to something has a parent: only the empty path, dots and the root have none (there [Path::parent] is [None] or
    the empty path); so unwrap on the parent of a file that is being read cannot panic (C03). *)
Theorem C49_no_parent p : path_parent p = None -> Forall (fun s => seg_skipped s = true) (path_split p).
Proof.
  unfold path_parent. intros H.
  assert (K : forall l, skip_segs (rev l) = [] -> Forall (fun s => seg_skipped s = true) l).
  { intros l E. destruct (skip_suffix (rev l)) as (a & Ea & F). rewrite E, app_nil_r in Ea. apply Forall_rev in F.
    rewrite <- Ea, rev_involutive in F. exact F. }
  destruct p as [|c p]; [repeat constructor|]. cbn [has_root] in H. destruct (N.eqb_spec c 47) as [->|Hc].
  - cbn [orb firstn skipn] in H. destruct (skip_segs (rev (path_split p))) eqn:E; [|discriminate]. constructor; [reflexivity|]. auto.
  - cbn [orb] in H. destruct (include_cur_dir (c :: p)); destruct (skip_segs _) eqn:E; try discriminate. auto.
Qed.

(** ** In a load *)
(** [in_tree fs]: paths of [fs] are resolved in a tree whose nodes may be regular files. *)
Definition in_tree (fs : fsys) (node : Type) (lookup : node -> str -> option node) (root cwd : node) (number : node -> option nat) : Prop :=
  forall p, fs_resolve fs p = match leads_to node lookup root cwd p with Some n => number n | None => None end.
(** The file that an include [p] in the file [f] opens ([target], C43) is the one [p] names in the directory of [f]; an
    include in a string is relative to the current directory. *)
Theorem C49_included_file fs node lookup root cwd number f dir name p :
  in_tree fs node lookup root cwd number -> ~ absolute p ->
  (found_in node lookup root cwd f dir name ->
   fs_resolve fs (target (Some f) p) = match walk node lookup dir (path_split p) with Some n => number n | None => None end) /\
  fs_resolve fs (target None p) = match walk node lookup cwd (path_split p) with Some n => number n | None => None end.
Proof.
  intros T P. split.
  - intros F. cbn [target]. rewrite T, (C49_relative _ _ _ _ _ _ _ _ F P). reflexivity.
  - cbn [target]. rewrite T. unfold leads_to. replace (start node root cwd p) with cwd; [reflexivity|].
    destruct p as [|c p]; [reflexivity|]. cbn. destruct (N.eqb_spec c 47); [|reflexivity]. subst. exfalso. apply P. exists p. reflexivity.
Qed.

(** A tree with the files /etc/a/main, /etc/lib and /home/x, current directory /home; nodes are absolute paths. *)
Section Ex.
#[local] Instance ascii_path : Unicode := {| u_alpha := fun _ => false; u_debug := fun c => [c] |}.
Definition ex_lookup (n : list str) (s : str) : option (list str) :=
  if str_eqb s (lit "..") then Some (removelast n)
  else let m := n ++ [s] in
       if existsb (list_eqb str_eqb m) [[lit "etc"]; [lit "etc"; lit "a"]; [lit "home"];
                        [lit "etc"; lit "a"; lit "main"]; [lit "etc"; lit "lib"]; [lit "home"; lit "x"]] then Some m else None.
Definition ex_number (n : list str) : option nat :=
  if list_eqb str_eqb n [lit "etc"; lit "a"; lit "main"] then Some 0%nat
  else if list_eqb str_eqb n [lit "etc"; lit "lib"] then Some 1%nat
  else if list_eqb str_eqb n [lit "home"; lit "x"] then Some 2%nat else None.
Definition ex_tree : fsys :=
  mkfs (fun p => match leads_to _ ex_lookup [] [lit "home"] p with Some n => ex_number n | None => None end)
    [ mkfe (Some (lit "/etc/a/main")) (inl (lit "l: <" ++ q (lit "../lib") ++ lit "> x: <" ++ q (lit "/home/x") ++ lit ">"));
      mkfe (Some (lit "/etc/lib")) (inl (lit "m: 1"));
      mkfe (Some (lit "/home/x")) (inl (lit "n: 2")) ] (fun _ => lit "no such file").
Example C49_ex : in_tree ex_tree _ ex_lookup [] [lit "home"] ex_number /\
  found_in _ ex_lookup [] [lit "home"] (lit "../etc//a/./main") [lit "etc"; lit "a"] (lit "main") /\
  ~ absolute (lit "../lib") /\
  exists o l x, from_file ex_tree g0 (lit "../etc//a/./main") = Some (OOk o) /\
    obj_pairs o = [(lit "l", VObj l); (lit "x", VObj x)] /\ obj_pairs l = [(lit "m", VInt 1)] /\ obj_pairs x = [(lit "n", VInt 2)].
Proof.
  split; [intros p; reflexivity|]. split.
  { exists [lit ".."; lit "etc"; []; lit "a"; lit "."], []. repeat split; constructor. }
  split; [intros [p' E]; discriminate|]. eexists _, _, _. split; [vm_compute; reflexivity|]. repeat split.
Qed.
End Ex.
Print Assumptions C49_segments.
Print Assumptions C49_absolute.
Print Assumptions C49_relative.
Print Assumptions C49_same_directory.
Print Assumptions C49_no_parent.
Print Assumptions C49_included_file.
