(** * PropSize: how large loaded data can get (C77). *)
From Verif Require Import SizeLoad PropLoad PropStep PropNames PropRound PropWork PropOps.
From Coq Require String.
Import String.StringSyntax.
Open Scope Z_scope.

(** The characters read: of the text and of the files opened; of the text and of all files. *)
Definition all_chars `{U : Unicode} fs g text : Z := Z.of_nat (length text) + Z.of_N (chars_all fs (reads_str fs g text)).

Section P.
Context `{U : Unicode}.
Lemma sumWc fs l : sumZ (Wc fs) l = Z.of_N (chars_all fs l).
Proof. induction l as [|i l IH]; [reflexivity|]. cbn [sumZ chars_all]. rewrite IH. unfold Wc, chars_of. lia. Qed.

(** Every part of what a text loads to is within the level that is the number of characters read. *)
Theorem C77_str fs g text o w : from_str fs g text = Some (OOk o) -> part w (VObj o) -> within_level (all_chars fs g text) w.
Proof.
  unfold from_str. intros E P. unfold all_chars, reads_str. rewrite <- sumWc. rewrite <- er_str in E.
  destruct (metered_str fs g text) as [[[x|k| |] sh] u] eqn:M; cbn in E; try discriminate. injection E as ->. exact (str_sz fs g text o sh u M w P).
Qed.
Theorem C77_file fs g path o w : from_file fs g path = Some (OOk o) -> part w (VObj o) -> within_level (Z.of_N (chars_all fs (reads_file fs g path))) w.
Proof.
  unfold from_file. intros E P. unfold reads_file. rewrite <- sumWc. rewrite <- er_file in E.
  destruct (metered_file fs g path) as [[[x|k| |] sh] u] eqn:M; cbn in E; try discriminate. injection E as ->. exact (file_sz fs g path o sh u M w P).
Qed.

(** No file counts twice, so the text and the disk bound what can be made of them. *)
Lemma chars_disk fs l : NoDup l -> (chars_all fs l <= disk_chars fs)%N.
Proof.
  intros N. assert (sumZ (Wc fs) l <= sumZ (Wc fs) (seq 0 (length (fs_files fs)))); [|rewrite !sumWc in *; unfold disk_chars; lia].
  apply sumZ_incl; auto; [intros i; unfold Wc; lia|]. intros i _. destruct (Nat.lt_ge_cases i (length (fs_files fs))) as [L|L].
  - left. apply in_seq. lia.
  - right. unfold Wc, file_size. apply nth_error_None in L. rewrite L. reflexivity.
Qed.
Lemma fits_mono a b w : 0 <= a <= b -> within_level a w -> within_level b w.
Proof. intros L F. assert (H : forall v, within_level a v -> within_level b v); [|auto]. clear - L. intros v.
  pose proof (two_mono a b L). assert (16 ^ 4 ^ a <= 16 ^ 4 ^ b) by (apply Z.pow_le_mono_r; [lia|apply Z.pow_le_mono_r; lia]).
  destruct v; cbn [within_level]; lia. Qed.
Theorem C77_str_disk fs g text o w : from_str fs g text = Some (OOk o) -> part w (VObj o) ->
  within_level (Z.of_nat (length text) + Z.of_N (disk_chars fs)) w.
Proof.
  intros E P. eapply fits_mono; [|exact (C77_str fs g text o w E P)]. unfold all_chars. pose proof (chars_disk fs _ (proj1 (C58_reads_once fs g) text)). lia.
Qed.
Theorem C77_file_disk fs g path o w : from_file fs g path = Some (OOk o) -> part w (VObj o) -> within_level (Z.of_N (disk_chars fs)) w.
Proof.
  intros E P. eapply fits_mono; [|exact (C77_file fs g path o w E P)].
  assert (N : from_file fs g path <> None) by (rewrite E; discriminate). pose proof (chars_disk fs _ (proj2 (C58_reads_once fs g) path N)). lia.
Qed.
Corollary C77_text g text o w : from_str no_fs g text = Some (OOk o) -> part w (VObj o) -> within_level (Z.of_nat (length text)) w.
Proof. intros E P. pose proof (C77_str_disk no_fs g text o w E P) as H. change (disk_chars no_fs) with 0%N in H. rewrite Z.add_0_r in H. exact H. Qed.

(** Both exponentials are real (Strs: C58_data_not_linear): [k] lines, each of which squares an Int. *)
Fixpoint squaring (k : nat) : str :=
  match k with
  | O => lit "a: 16"
  | S k => more (squaring k) (nth_name (S k)) (nth_name k ++ lit "*" ++ nth_name k)
  end.
Lemma squaring_length k : (length (squaring k) <= 2 * k * k + 7 * k + 6)%nat.
Proof.
  induction k as [|k IH]; [cbn; lia|]. cbn [squaring]. unfold more, nth_name. rewrite !app_length. cbn [length]. rewrite !app_length, !repeat_length.
  cbn [length]. change (length (lit ": ")) with 2%nat. change (length (lit "*")) with 1%nat. lia.
Qed.
Lemma squaring_loads g k : exists o, from_str no_fs g (squaring k) = Some (OOk o) /\
  assoc (nth_name k) (obj_pairs o) = Some (VInt (16 ^ 2 ^ Z.of_nat k)) /\
  (forall j, (k < j)%nat -> assoc (nth_name j) (obj_pairs o) = None).
Proof.
  induction k as [|k (o & E & A & N)].
  - exists (MkObj (g_next g) [(lit "a", VInt 16)] None). split; [vm_compute; reflexivity|]. split; [reflexivity|].
    intros j L. destruct j; [lia|]. reflexivity.
  - destruct (C17_line no_fs g (squaring k) o (nth_name (S k)) (nth_name k) (nth_name k) (VInt (16 ^ 2 ^ Z.of_nat k)) (VInt (16 ^ 2 ^ Z.of_nat k)) BMult) as [H _]; auto; try discriminate.
    { split; [exact E|]. split; [apply nm_legal|]. apply N. lia. }
    destruct (H (VInt (16 ^ 2 ^ Z.of_nat (S k)))) as (o' & E' & P' & _).
    { replace (16 ^ 2 ^ Z.of_nat (S k)) with (16 ^ 2 ^ Z.of_nat k * 16 ^ 2 ^ Z.of_nat k); [constructor|].
      rewrite <- Z.pow_add_r by (apply Z.pow_nonneg; lia). f_equal. rewrite Nat2Z.inj_succ, Z.pow_succ_r; lia. }
    exists o'. split; [exact E'|]. rewrite P'.
    assert (Q : forall f w, assoc f (obj_pairs o ++ [(nth_name (S k), w)]) =
              match assoc f (obj_pairs o) with Some v => Some v | None => assoc f [(nth_name (S k), w)] end) by (intros; apply assoc_app).
    split.
    + rewrite Q, (N (S k)) by lia. cbn [assoc]. destruct (str_eqb_spec (nth_name (S k)) (nth_name (S k))); [|congruence]. reflexivity.
    + intros j L. rewrite Q, (N j) by lia. cbn [assoc]. destruct (str_eqb_spec (nth_name (S k)) (nth_name j)) as [X|X]; [|reflexivity].
      apply nm_inj in X. lia.
Qed.
Theorem C77_ints_get_this_large g (k : nat) : exists text o f,
  (length text < 2 * (k + 2) * (k + 2))%nat /\ from_str no_fs g text = Some (OOk o) /\
  assoc f (obj_pairs o) = Some (VInt (16 ^ 2 ^ Z.of_nat k)).
Proof.
  destruct (squaring_loads g k) as (o & E & A & _). exists (squaring k), o, (nth_name k).
  split; [pose proof (squaring_length k); lia|]. auto.
Qed.
End P.

(** ** Examples *)
Section Ex.
#[local] Instance ascii : Unicode := {| u_alpha := fun _ => false; u_debug := fun c => [c] |}.
(** One of the parts is 2187, another an Arr of 6 elements. *)
Example C77_ex_text : exists o, from_str no_fs g0 (lit "a: [3 27*81] b: a+a+a") = Some (OOk o) /\ part (VInt 2187) (VObj o) /\
  (exists a, part (VArr a) (VObj o) /\ length (arr_values a) = 6%nat).
Proof.
  eexists. split; [vm_compute; reflexivity|]. split.
  - eapply part_field; [left; reflexivity|]. eapply part_arr; [right; left; reflexivity|]. constructor.
  - eexists. split; [eapply part_field; [right; left; reflexivity|]; constructor|reflexivity].
Qed.
(** A file that includes another. *)
Example C77_ex_file : exists o, from_file ex_fs g0 (lit "a") = Some (OOk o) /\ chars_all ex_fs (reads_file ex_fs g0 (lit "a")) = 44%N.
Proof. eexists. vm_compute. split; reflexivity. Qed.
End Ex.
(** The levels are not vacuous: the empty text has level 0, and a Str of 2 characters is not within it. *)
Example C77_ex_level : ~ within_level 0 (VStr (lit "ab")) /\ within_level 1 (VStr (lit "ab")) /\
  ~ within_level 0 (VInt 17) /\ within_level 1 (VInt 17) /\ ~ within_level 1 (VInt 65537).
Proof. cbn. lia. Qed.
Print Assumptions C77_str.
Print Assumptions C77_file.
Print Assumptions C77_str_disk.
Print Assumptions C77_file_disk.
Print Assumptions C77_text.
Print Assumptions C77_ints_get_this_large.
