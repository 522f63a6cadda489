(** * PropWork: how much work a load is (C58). *)
From Verif Require Import CountProofs PropLoad PropStep PropNames PropRound.
From Coq Require Import Permutation.
From Coq Require String.
Import String.StringSyntax.
Open Scope N_scope.

(** Calls, turns of loops and characters taken, in loading a text or a file; the files opened, by number. *)
Definition steps_str `{U : Unicode} fs g text : N := m_ticks (snd (metered_str fs g text)).
Definition reads_str `{U : Unicode} fs g text : list nat := m_reads (snd (metered_str fs g text)).
Definition steps_file `{U : Unicode} fs g path : N := m_ticks (snd (metered_file fs g path)).
Definition reads_file `{U : Unicode} fs g path : list nat := m_reads (snd (metered_file fs g path)).
(** Number of characters of file number [i] (0 if it cannot be read); of several files; of the whole disk. *)
Definition chars_of (fs : fsys) (i : nat) : N := N.of_nat (file_size fs i).
Fixpoint chars_all (fs : fsys) (l : list nat) : N := match l with [] => 0 | i :: l => chars_of fs i + chars_all fs l end.
Definition disk_chars (fs : fsys) : N := chars_all fs (seq 0 (length (fs_files fs))).

Section P.
Context `{U : Unicode}.

(** The meter is not observable. *)
Theorem C58_meter_is_loading fs g :
  (forall text, fst (metered_str fs g text) = parse_obj_str fs g text) /\
  (forall path, fst (metered_file fs g path) = parse_obj_file fs g path).
Proof. split; intros; [apply er_str|apply er_file]. Qed.
(** The files it notes are those that the log of the load (C22-C24) says were opened. *)
Theorem C58_reads_are_the_opens fs g :
  (forall text, opens (sh_log (snd (parse_obj_str fs g text))) = rev (map (cn fs) (reads_str fs g text))) /\
  (forall path, opens (sh_log (snd (parse_obj_file fs g path))) = rev (map (cn fs) (reads_file fs g path))).
Proof.
  split; intros x; [rewrite <- er_str; unfold reads_str; destruct (metered_str fs g x) as [[r sh] u] eqn:E; exact (str_lg _ _ _ _ _ _ E)
                   |rewrite <- er_file; unfold reads_file; destruct (metered_file fs g x) as [[r sh] u] eqn:E; exact (file_lg _ _ _ _ _ _ E)].
Qed.

Lemma sum_chars fs l : (sumZ (Wt fs) l <= 5 * Z.of_N (chars_all fs l) + 4 * Z.of_nat (length l))%Z.
Proof.
  induction l as [|i l IH]; [reflexivity|]. cbn [sumZ chars_all length]. unfold Wt at 1, chars_of.
  destruct (nth_error _ _); lia.
Qed.

(** At most five steps for each character of the text and of the files that were opened, and a few for each file. *)
Theorem C58_str fs g text :
  steps_str fs g text <= 5 * (N.of_nat (length text) + chars_all fs (reads_str fs g text)) + 4 * N.of_nat (length (reads_str fs g text)) + 3.
Proof.
  pose proof (str_cost fs g text) as H. unfold cost in H. unfold steps_str, reads_str. pose proof (sum_chars fs (m_reads (snd (metered_str fs g text)))). lia.
Qed.
Theorem C58_file fs g path :
  steps_file fs g path <= 5 * chars_all fs (reads_file fs g path) + 4 * N.of_nat (length (reads_file fs g path)) + 1.
Proof.
  pose proof (file_cost fs g path) as H. unfold cost in H. unfold steps_file, reads_file. pose proof (sum_chars fs (m_reads (snd (metered_file fs g path)))). lia.
Qed.

(** No file is opened twice. *)
Lemma entry_lt fs p i e : fs_entry fs p = Some (i, e) -> (i < length (fs_files fs))%nat.
Proof.
  unfold fs_entry. destruct (path_parent p); [|discriminate]. destruct (fs_resolve fs p) as [j|]; [|discriminate].
  destruct (nth_error (fs_files fs) j) eqn:F; [|discriminate]. intros K; inversion K; subst. apply nth_error_Some. congruence.
Qed.
Lemma nodup_reads fs l : NoDup (rev (map (cn fs) l)) -> NoDup l.
Proof. intros H. apply NoDup_rev in H. rewrite rev_involutive in H. eapply NoDup_map_inv; eauto. Qed.
Theorem C58_reads_once fs g :
  (forall text, NoDup (reads_str fs g text)) /\
  (forall path, from_file fs g path <> None -> NoDup (reads_file fs g path)).
Proof.
  split.
  - intros text. apply (nodup_reads fs). rewrite <- (proj1 (C58_reads_are_the_opens fs g)).
    eapply C23_each_file_opened_once. left. exists text, (fst (parse_obj_str fs g text)), (snd (parse_obj_str fs g text)).
    rewrite <- surjective_pairing. eauto.
  - intros path N. apply (nodup_reads fs). rewrite <- (proj2 (C58_reads_are_the_opens fs g)).
    eapply C23_each_file_opened_once. right. exists path, (fst (parse_obj_file fs g path)), (snd (parse_obj_file fs g path)).
    rewrite <- surjective_pairing. split; [reflexivity|]. split; [reflexivity|]. split; [|reflexivity].
    intros P. apply N. unfold from_file. rewrite P. reflexivity.
Qed.
Lemma sumZ_perm W l l' : Permutation l l' -> sumZ W l = sumZ W l'.
Proof. induction 1; cbn [sumZ]; lia. Qed.
Lemma sumZ_incl W l : forall l', (forall i, 0 <= W i)%Z -> NoDup l -> (forall i, In i l -> In i l' \/ W i = 0%Z) -> (sumZ W l <= sumZ W l')%Z.
Proof.
  induction l as [|i l IH]; intros l' P N I; cbn [sumZ].
  { clear - P. induction l' as [|j l' IH]; cbn [sumZ]; [lia|]. specialize (P j). lia. }
  inversion N; subst. destruct (I i (or_introl eq_refl)) as [J|Z].
  - apply in_split in J as (a & b & ->). rewrite (sumZ_perm W (a ++ i :: b) (i :: a ++ b)) by (symmetry; apply Permutation_middle).
    cbn [sumZ]. assert (sumZ W l <= sumZ W (a ++ b))%Z; [|lia]. apply IH; auto.
    intros j J. destruct (I j (or_intror J)) as [K|K]; auto. left. apply in_app_or in K as [K|[K|K]]; apply in_or_app; auto. subst. contradiction.
  - rewrite Z. assert (sumZ W l <= sumZ W l')%Z; [|lia]. apply IH; auto. intros j J. apply I. right; auto.
Qed.
Lemma reads_disk fs l : NoDup l -> (sumZ (Wt fs) l <= 5 * Z.of_N (disk_chars fs) + 4 * Z.of_nat (length (fs_files fs)))%Z.
Proof.
  intros N. transitivity (sumZ (Wt fs) (seq 0 (length (fs_files fs)))).
  - apply sumZ_incl; auto; [intros i; unfold Wt; destruct (nth_error _ _); lia|]. intros i _.
    destruct (Nat.lt_ge_cases i (length (fs_files fs))) as [L|L].
    + left. apply in_seq. lia.
    + right. unfold Wt. apply nth_error_None in L. rewrite L. reflexivity.
  - pose proof (sum_chars fs (seq 0 (length (fs_files fs)))) as H. rewrite seq_length in H. exact H.
Qed.
(** So however the includes are nested and repeated, the work is linear in the text and the disk. *)
Theorem C58_str_disk fs g text :
  steps_str fs g text <= 5 * (N.of_nat (length text) + disk_chars fs) + 4 * N.of_nat (length (fs_files fs)) + 3.
Proof.
  pose proof (str_cost fs g text) as H. pose proof (reads_disk fs _ (proj1 (C58_reads_once fs g) text)) as D.
  unfold cost, steps_str, reads_str in *. lia.
Qed.
Theorem C58_file_disk fs g path : from_file fs g path <> None ->
  steps_file fs g path <= 5 * disk_chars fs + 4 * N.of_nat (length (fs_files fs)) + 1.
Proof.
  intros N. pose proof (file_cost fs g path) as H. pose proof (reads_disk fs _ (proj2 (C58_reads_once fs g) path N)) as D.
  unfold cost, steps_file, reads_file in *. lia.
Qed.
Corollary C58_no_includes g text : steps_str no_fs g text <= 5 * N.of_nat (length text) + 3.
Proof. pose proof (C58_str_disk no_fs g text) as H. change (disk_chars no_fs) with 0 in H. change (length (fs_files no_fs)) with 0%nat in H. lia. Qed.

(** The data has no such bound: [k] lines, each of which doubles a Str. *)
Definition nth_name (k : nat) : str := repeat 97 (S k).   (* a, aa, aaa, ... *)
Fixpoint doubling (k : nat) : str :=
  match k with
  | O => lit "a: ""x"""
  | S k => more (doubling k) (nth_name (S k)) (nth_name k ++ lit "+" ++ nth_name k)
  end.
Lemma doubling_length k : (length (doubling k) <= 2 * k * k + 7 * k + 6)%nat.
Proof.
  induction k as [|k IH]; [cbn; lia|]. cbn [doubling]. unfold more, nth_name. rewrite !app_length. cbn [length]. rewrite !app_length, !repeat_length.
  cbn [length]. change (length (lit ": ")) with 2%nat. change (length (lit "+")) with 1%nat. lia.
Qed.
Lemma assoc_app {A} k (l l' : list (str * A)) : assoc k (l ++ l') = match assoc k l with Some v => Some v | None => assoc k l' end.
Proof. induction l as [|[x v] l IH]; [reflexivity|]. cbn [app assoc]. destruct (str_eqb x k); auto. Qed.
Lemma doubling_loads g k : exists o, from_str no_fs g (doubling k) = Some (OOk o) /\
  assoc (nth_name k) (obj_pairs o) = Some (VStr (repeat 120 (2 ^ k))) /\
  (forall j, (k < j)%nat -> assoc (nth_name j) (obj_pairs o) = None).
Proof.
  induction k as [|k (o & E & A & N)].
  - exists (MkObj (g_next g) [(lit "a", VStr (lit "x"))] None). split; [vm_compute; reflexivity|]. split; [reflexivity|].
    intros j L. destruct j; [lia|]. reflexivity.
  - destruct (C28_line no_fs g (doubling k) o (nth_name (S k)) (nth_name k) (nth_name k)) as [H _].
    { split; [exact E|]. split; [apply nm_legal|]. apply N. lia. }
    destruct (H _ _ A A) as (o' & E' & P' & _). exists o'. split; [exact E'|]. rewrite P'.
    assert (Q : forall f w, assoc f (obj_pairs o ++ [(nth_name (S k), w)]) =
              match assoc f (obj_pairs o) with Some v => Some v | None => assoc f [(nth_name (S k), w)] end) by (intros; apply assoc_app).
    split.
    + rewrite Q, (N (S k)) by lia. cbn [assoc]. destruct (str_eqb_spec (nth_name (S k)) (nth_name (S k))); [|congruence]. rewrite <- repeat_app. do 3 f_equal. cbn. lia.
    + intros j L. rewrite Q, (N j) by lia. cbn [assoc]. destruct (str_eqb_spec (nth_name (S k)) (nth_name j)) as [X|X]; [|reflexivity].
      apply nm_inj in X. lia.
Qed.
(** For every [k] there is a text of fewer than 2(k+2)^2 characters with a Str of 2^k characters in it. *)
Theorem C58_data_not_linear g (k : nat) : exists text o f s,
  (length text < 2 * (k + 2) * (k + 2))%nat /\ from_str no_fs g text = Some (OOk o) /\
  assoc f (obj_pairs o) = Some (VStr s) /\ length s = (2 ^ k)%nat.
Proof.
  destruct (doubling_loads g k) as (o & E & A & _). exists (doubling k), o, (nth_name k), (repeat 120 (2 ^ k)).
  split; [pose proof (doubling_length k); lia|]. split; [exact E|]. split; [exact A|apply repeat_length].
Qed.
End P.

(** ** Examples *)
Section Ex.
#[local] Instance ascii : Unicode := {| u_alpha := fun _ => false; u_debug := fun c => [c] |}.
Definition ex_text : str := lit "a: [1 2] b: a.0+1 c: {d: -1}".
Example C58_ex_text : (exists o, from_str no_fs g0 ex_text = Some (OOk o)) /\ steps_str no_fs g0 ex_text = 63 /\ length ex_text = 28%nat.
Proof. split; [eexists|]; vm_compute; auto. Qed.
(** a includes b twice; b is read once *)
Example C58_ex_file : from_file ex_fs g0 (lit "a") <> None /\ reads_file ex_fs g0 (lit "a") = [0%nat; 1%nat] /\
  steps_file ex_fs g0 (lit "a") = 90 /\ chars_all ex_fs (reads_file ex_fs g0 (lit "a")) = 44.
Proof. vm_compute. split; [discriminate|auto]. Qed.
End Ex.

Print Assumptions C58_meter_is_loading.
Print Assumptions C58_reads_are_the_opens.
Print Assumptions C58_str.
Print Assumptions C58_file.
Print Assumptions C58_reads_once.
Print Assumptions C58_str_disk.
Print Assumptions C58_file_disk.
Print Assumptions C58_no_includes.
Print Assumptions C58_data_not_linear.
