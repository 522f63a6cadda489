(** * PropWritten: C81, how long the written text is (obj.rs:169-173 write_to_string; parse/format.rs).
    The layout is that of C54; here its characters, lines and blanks are counted. *)
From Verif Require Import FormatProofs ValueSpec Roundtrip PropLayout PropWork PropMsg.
From Coq Require Import Lia.
From Coq Require String.
Import String.StringSyntax.
Open Scope nat_scope.

(** ** Specification *)
Definition sum : list nat -> nat := fold_right Nat.add 0.
(** Characters of a string that are written with a backslash. *)
Definition escaped (c : char) : bool := existsb (N.eqb c) [92; 34; 39; 36; 10; 13; 9]%N.
(** The characters that the data needs: everything but the line ends and the blanks at the beginning of lines. *)
Fixpoint spelled (v : value) : nat :=
  match v with
  | VNull => 4
  | VBool b => if b then 4 else 5
  | VInt z => length (written_int z)
  | VFrac q => length (written_frac q)
  | VStr s => length s + length (filter escaped s) + 2
  | VArr (MkArr _ _ vs) => 2 + sum (map spelled vs)
  | VTup (MkTup _ _ vs) => 2 + sum (map spelled vs)
  | VObj o => 2 + spelled_obj o
  end
with spelled_obj (o : obj) : nat :=
  match o with
  | MkObj _ ps par => match par with Some p => 3 + (2 + spelled_obj p) | None => 0 end +
      sum (map (fun fv => match fv with (f, v) => length f + 2 + spelled v end) ps)
  end.
(** The lines: a list of at most one element adds none, a longer one and an Obj with fields have two more. *)
Fixpoint lines (v : value) : nat :=
  match v with
  | VArr (MkArr _ _ vs) => match map lines vs with [] => 1 | [n] => n | ns => 2 + sum ns end
  | VTup (MkTup _ _ vs) => match map lines vs with [] => 1 | [n] => n | ns => 2 + sum ns end
  | VObj o => match lines_obj o with O => 1 | n => 2 + n end
  | _ => 1
  end
with lines_obj (o : obj) : nat :=
  match o with
  | MkObj _ ps par => match par with Some p => match lines_obj p with O => 1 | n => 2 + n end | None => 0 end +
      sum (map (fun fv => match fv with (f, v) => lines v end) ps)
  end.
(** The values in a value, itself among them; one that occurs in several places is counted in each. *)
Fixpoint things (v : value) : nat :=
  match v with
  | VArr (MkArr _ _ vs) => 1 + sum (map things vs)
  | VTup (MkTup _ _ vs) => 1 + sum (map things vs)
  | VObj o => things_obj o
  | _ => 1
  end
with things_obj (o : obj) : nat :=
  match o with
  | MkObj _ ps par => 1 + match par with Some p => things_obj p | None => 0 end +
      sum (map (fun fv => match fv with (f, v) => things v end) ps)
  end.

(** ** Proof *)
Definition chars (b : list line) : nat := sum (map (fun l => length (snd l)) b).
Lemma sum_app a b : sum (a ++ b) = sum a + sum b.
Proof. unfold sum. induction a as [|x a IH]; cbn [app fold_right]; [reflexivity|]. rewrite IH. lia. Qed.
Lemma sum_concat (f : line -> nat) bs : sum (map f (concat bs)) = sum (map (fun b => sum (map f b)) bs).
Proof. induction bs as [|b bs IH]; cbn; [reflexivity|]. rewrite map_app, sum_app, IH. reflexivity. Qed.
Lemma chars_app a b : chars (a ++ b) = chars a + chars b.
Proof. unfold chars. rewrite map_app. apply sum_app. Qed.
Lemma chars_cons l b : chars (l :: b) = length (snd l) + chars b. Proof. reflexivity. Qed.
Lemma chars_deeper b : chars (map deeper b) = chars b.
Proof. unfold chars. rewrite map_map. reflexivity. Qed.
Lemma len_deeper b : length (map deeper b) = length b. Proof. apply map_length. Qed.
Lemma before_count p b : b <> [] -> length (before_first p b) = length b /\ chars (before_first p b) = length p + chars b.
Proof. destruct b as [|[n t] b]; [congruence|]. intros _. cbn [before_first]. rewrite !chars_cons. cbn [snd length]. rewrite app_length. lia. Qed.
Lemma after_count q b : b <> [] -> length (after_last b q) = length b /\ chars (after_last b q) = chars b + length q.
Proof.
  induction b as [|[n t] b IH]; [congruence|]. intros _. destruct b as [|l b].
  - cbn [after_last]. unfold chars, sum. cbn. rewrite app_length. lia.
  - change (after_last ((n, t) :: l :: b) q) with ((n, t) :: after_last (l :: b) q). destruct IH as [I1 I2]; [discriminate|].
    rewrite !chars_cons in *. cbn [length] in *. lia.
Qed.
Lemma written_char_len c : length (written_char c) = if escaped c then 2 else 1.
Proof.
  unfold written_char, escaped. cbn [assoc existsb str_eqb list_eqb]. rewrite !andb_true_r, orb_false_r, !(N.eqb_sym _ c).
  repeat match goal with |- context [(c =? ?k)%N] => destruct (c =? k)%N; [reflexivity|] end. reflexivity.
Qed.
Lemma written_str_len s : length (flat_map written_char s) = length s + length (filter escaped s).
Proof.
  induction s as [|c s IH]; [reflexivity|]. cbn [flat_map filter]. rewrite app_length, IH, written_char_len.
  destruct (escaped c); cbn [length]; lia.
Qed.
Lemma headed_ne b : headed b -> b <> []. Proof. intros (? & ? & ->). discriminate. Qed.
Lemma block_ne v : block v <> []. Proof. apply headed_ne, (proj1 (proj1 layout v O)). Qed.

(** Lines and characters. *)
Definition counts (v : value) : Prop := length (block v) = lines v /\ chars (block v) = spelled v.
Lemma enclose_counts op cl vs : length op = 1 -> length cl = 1 -> Forall counts vs ->
  length (enclose op cl (map block vs)) = match map lines vs with [] => 1 | [n] => n | ns => 2 + sum ns end /\
  chars (enclose op cl (map block vs)) = 2 + sum (map spelled vs).
Proof.
  intros Ho Hc F. destruct vs as [|v [|w vs]].
  - cbn [map enclose]. rewrite chars_cons. cbn [snd length]. rewrite app_length. unfold chars, sum. cbn. lia.
  - apply Forall_inv in F. destruct F as [F1 F2]. cbn [map enclose]. pose proof (block_ne v) as N.
    destruct (before_count op _ N) as [B1 B2]. assert (N2 : before_first op (block v) <> []) by (destruct (block v) as [|[]]; [congruence|discriminate]).
    destruct (after_count cl _ N2) as [A1 A2]. unfold sum. cbn [fold_right map]. lia.
  - assert (S : forall us, Forall counts us -> length (concat (map block us)) = sum (map lines us) /\ chars (concat (map block us)) = sum (map spelled us)).
    { clear. induction 1 as [|u us [U1 U2] _ [I1 I2]]; [split; reflexivity|]. cbn [map concat]. rewrite app_length, chars_app, I1, I2, U1, U2. split; reflexivity. }
    destruct (S _ F) as [S1 S2].
    change (enclose op cl (map block (v :: w :: vs))) with ((O, op) :: map deeper (concat (map block (v :: w :: vs))) ++ [(O, cl)]).
    rewrite chars_cons, chars_app, chars_deeper, S2. cbn [length snd]. rewrite app_length, len_deeper, S1. unfold chars. cbn [map snd length].
    change (sum [length cl]) with (length cl + 0). cbn [map]. split; [|lia].
    change (match lines v :: lines w :: map lines vs with [] => 1 | [n] => n | _ :: _ :: _ => 2 + sum (lines v :: lines w :: map lines vs) end)
      with (2 + sum (lines v :: lines w :: map lines vs)). lia.
Qed.
Lemma braces_counts o : length (obj_lines o) = lines_obj o -> chars (obj_lines o) = spelled_obj o ->
  length (match obj_lines o with [] => [(O, lit "{}")] | ls => (O, lit "{") :: map deeper ls ++ [(O, lit "}")] end) = match lines_obj o with O => 1 | n => 2 + n end /\
  chars (match obj_lines o with [] => [(O, lit "{}")] | ls => (O, lit "{") :: map deeper ls ++ [(O, lit "}")] end) = 2 + spelled_obj o.
Proof.
  intros L C. destruct (obj_lines o) as [|l ls] eqn:E.
  - cbn [length] in L. rewrite <- L, <- C. split; reflexivity.
  - rewrite <- E in *. rewrite chars_cons, chars_app, chars_deeper, C. cbn [length]. rewrite app_length, len_deeper, L.
    destruct (lines_obj o) as [|n]; [rewrite E in L; discriminate|]. split; [cbn [length]; lia|]. unfold chars. cbn. lia.
Qed.
Lemma all_counts : (forall v, counts v) /\ (forall o, length (obj_lines o) = lines_obj o /\ chars (obj_lines o) = spelled_obj o).
Proof.
  apply value_obj_ind2.
  - split; reflexivity.
  - intros []; split; reflexivity.
  - intros z. split; [reflexivity|]. unfold chars, sum. cbn [block map fold_right snd spelled]. lia.
  - intros q. split; [reflexivity|]. unfold chars, sum. cbn [block map fold_right snd spelled]. lia.
  - intros s. split; [reflexivity|]. unfold chars, sum. cbn [block map fold_right snd spelled]. rewrite !app_length, written_str_len. cbn [length]. lia.
  - intros id t vs IH. apply (enclose_counts (lit "[") (lit "]")); auto.
  - intros id t vs IH. apply (enclose_counts (lit "(") (lit ")")); auto.
  - intros o [L C]. apply (braces_counts o L C).
  - intros id ps par IH IHp. cbn [obj_lines lines_obj spelled_obj]. rewrite app_length, chars_app.
    assert (P : length (match par with Some p => before_first (lit "^: ") match obj_lines p with [] => [(O, lit "{}")] | ls => (O, lit "{") :: map deeper ls ++ [(O, lit "}")] end | None => [] end) =
        match par with Some p => match lines_obj p with O => 1 | n => 2 + n end | None => 0 end /\
      chars (match par with Some p => before_first (lit "^: ") match obj_lines p with [] => [(O, lit "{}")] | ls => (O, lit "{") :: map deeper ls ++ [(O, lit "}")] end | None => [] end) =
        match par with Some p => 3 + (2 + spelled_obj p) | None => 0 end).
    { destruct par as [p|]; [|split; reflexivity]. destruct (IHp p eq_refl) as [L C]. destruct (braces_counts p L C) as [B1 B2].
      pose proof (block_ne (VObj p)) as N. change (block (VObj p)) with (match obj_lines p with [] => [(O, lit "{}")] | ls => (O, lit "{") :: map deeper ls ++ [(O, lit "}")] end) in N.
      destruct (before_count (lit "^: ") _ N) as [E1 E2]. split; [exact (eq_trans E1 B1)|exact (eq_trans E2 (f_equal (Nat.add 3) B2))]. }
    destruct P as [-> ->]. clear IHp. enough (F : length (flat_map (fun fv => match fv with (f, v) => before_first (f ++ lit ": ") (block v) end) ps) = sum (map (fun fv => match fv with (f, v) => lines v end) ps) /\
      chars (flat_map (fun fv => match fv with (f, v) => before_first (f ++ lit ": ") (block v) end) ps) = sum (map (fun fv => match fv with (f, v) => length f + 2 + spelled v end) ps)) by (destruct F as [-> ->]; split; reflexivity).
    induction ps as [|[f v] ps IHs]; [split; reflexivity|]. inversion_clear IH as [|? ? [V1 V2] Hs]. destruct (IHs Hs) as [I1 I2]. cbn [flat_map map].
    rewrite app_length, chars_app, I1, I2. destruct (before_count (f ++ lit ": ") _ (block_ne v)) as [E1 E2].
    rewrite E1, E2, V1, V2, app_length. unfold sum. cbn [fold_right]. change (length (lit ": ")) with 2. lia.
Qed.

(** Levels. *)
Definition below (n : nat) (l : line) : Prop := fst l <= n.
Lemma below_mono n m b : n <= m -> Forall (below n) b -> Forall (below m) b.
Proof. intros H. apply Forall_impl. intros l. unfold below. lia. Qed.
Lemma before_below n p b : Forall (below n) b -> Forall (below n) (before_first p b).
Proof. destruct 1 as [|[k t] b H F]; constructor; auto. Qed.
Lemma after_below n q b : Forall (below n) b -> Forall (below n) (after_last b q).
Proof.
  induction 1 as [|[k t] b H F IH]; [constructor|]. destruct b as [|l b]; [constructor; auto|].
  change (after_last ((k, t) :: l :: b) q) with ((k, t) :: after_last (l :: b) q). constructor; auto.
Qed.
Lemma deeper_below n b : Forall (below n) b -> Forall (below (S n)) (map deeper b).
Proof. induction 1 as [|l b H F IH]; constructor; auto. unfold below, deeper in *. cbn. lia. Qed.
Lemma wrap_below n op cl b : Forall (below n) b -> Forall (below (S n)) ((O, op) :: map deeper b ++ [(O, cl)]).
Proof.
  intros F. constructor; [unfold below; cbn; lia|]. apply Forall_app. split; [apply deeper_below, F|].
  constructor; [unfold below; cbn; lia|constructor].
Qed.
Lemma enclose_below op cl vs : Forall (fun v => Forall (below (N.to_nat (depth v))) (block v)) vs ->
  Forall (below (N.to_nat (1 + fold_right N.max 0%N (map depth vs)))) (enclose op cl (map block vs)).
Proof.
  intros F. set (m := fold_right N.max 0%N (map depth vs)).
  assert (G : Forall (below (N.to_nat m)) (concat (map block vs))).
  { unfold m. clear m. induction F as [|v vs H F IH]; [constructor|]. cbn [map concat fold_right]. apply Forall_app. split.
    - eapply below_mono; [|exact H]. lia.
    - eapply below_mono; [|exact IH]. lia. }
  replace (N.to_nat (1 + m)) with (S (N.to_nat m)) by lia. destruct vs as [|v [|w vs]].
  - constructor; [unfold below; cbn; lia|constructor].
  - cbn [map enclose concat] in *. rewrite app_nil_r in G. eapply below_mono; [|apply after_below, before_below, G]. lia.
  - apply wrap_below, G.
Qed.
Lemma all_below : (forall v, Forall (below (N.to_nat (depth v))) (block v)) /\
  (forall o, (1 <= depth_obj o)%N /\ Forall (below (N.to_nat (depth_obj o) - 1)) (obj_lines o) /\ Forall (below (N.to_nat (depth_obj o))) (block (VObj o))).
Proof.
  assert (one : forall t n, Forall (below n) [(O, t)]) by (intros; constructor; [unfold below; cbn; lia|constructor]).
  apply value_obj_ind2; try (intros; apply one).
  - intros id t vs IH. apply enclose_below, IH.
  - intros id t vs IH. apply enclose_below, IH.
  - intros o (_ & _ & H). exact H.
  - intros id ps par IH IHp.
    assert (B : Forall (below (N.to_nat (depth_obj (MkObj id ps par)) - 1)) (obj_lines (MkObj id ps par))).
    { cbn [depth_obj obj_lines]. set (a := match par with Some p => depth_obj p | None => 0%N end).
      set (m := fold_right N.max 0%N _). replace (N.to_nat (1 + N.max a m) - 1) with (Nat.max (N.to_nat a) (N.to_nat m)) by lia.
      apply Forall_app. split.
      - destruct par as [p|]; [|constructor]. destruct (IHp p eq_refl) as (_ & _ & H). apply before_below. eapply below_mono; [|exact H]. apply Nat.le_max_l.
      - apply (below_mono (N.to_nat m)); [apply Nat.le_max_r|]. unfold m. clear -IH. induction ps as [|[f v] ps IHs]; [constructor|]. inversion_clear IH as [|? ? H F]. specialize (IHs F).
        cbn [flat_map map fold_right]. apply Forall_app. split; [apply before_below; eapply below_mono; [|exact H]; cbn [snd]; lia|eapply below_mono; [|exact IHs]; lia]. }
    assert (D : (1 <= depth_obj (MkObj id ps par))%N) by (cbn [depth_obj]; lia). split; [exact D|]. split; [exact B|].
    remember (MkObj id ps par) as o. clear -B D one. cbn [block]. destruct (obj_lines o) as [|l ls] eqn:E; [apply one|].
    rewrite <- E in *. replace (N.to_nat (depth_obj o)) with (S (N.to_nat (depth_obj o) - 1)) by lia. apply wrap_below, B.
Qed.

Lemma line_length l : length (line_text l) = 4 * fst l + length (snd l) + 1.
Proof. unfold line_text. rewrite !app_length, repeat_length. change (length [10%N]) with 1. lia. Qed.
Lemma text_length n b : Forall (below n) b -> chars b + length b <= length (text_of b) <= chars b + length b * (4 * n + 1).
Proof.
  unfold text_of. induction 1 as [|l b H F IH]; [cbn; lia|]. cbn [map concat]. rewrite app_length, chars_cons, line_length.
  change (length (l :: b)) with (S (length b)). unfold below in H. rewrite (Nat.mul_succ_l (length b)). lia.
Qed.

(** ** C81 *)
Theorem C81_length o text : write_to_string o = Some text ->
  spelled_obj o + lines_obj o <= length text <= spelled_obj o + lines_obj o * (4 * (N.to_nat (depth_obj o) - 1) + 1).
Proof.
  rewrite C54_written_lines. intros E. injection E as <-. destruct (proj2 all_counts o) as [<- <-].
  apply text_length. apply (proj2 all_below o).
Qed.
Theorem C81_display v text : value_display v = Some text ->
  spelled v + lines v <= length text + 1 <= spelled v + lines v * (4 * N.to_nat (depth v) + 1).
Proof.
  intros E. destruct (C54_display v) as (t & E' & T). rewrite E in E'. injection E' as <-.
  replace (length text + 1) with (length (text_of (block v))) by (rewrite <- T, app_length; reflexivity).
  destruct (proj1 all_counts v) as [<- <-]. apply text_length. apply (proj1 all_below v).
Qed.

(** The lines are the lines of the text. *)
Theorem C81_lines `{U : Unicode} o text : wf_obj good_names o -> write_to_string o = Some text ->
  count_occ N.eq_dec text 10%N = lines_obj o.
Proof.
  intros W E. destruct (C54_lines_are_lines o text W E) as [_ T]. rewrite C54_written_lines in E. injection E as <-.
  rewrite <- (proj1 (proj2 all_counts o)). unfold text_of. induction T as [|l ls (_ & _ & S) T IH]; [reflexivity|].
  cbn [map concat length]. rewrite count_occ_app, IH. unfold line_text. rewrite !count_occ_app.
  rewrite (proj1 (count_occ_not_In N.eq_dec (repeat 32%N (4 * fst l)) 10%N)) by (intros I; apply repeat_spec in I; discriminate).
  rewrite (proj1 (count_occ_not_In N.eq_dec (snd l) 10%N)); [reflexivity|]. intros I. rewrite Forall_forall in S. apply (S _ I). cbn. auto.
Qed.

(** At most two lines for each value. *)
Lemma lines_things : (forall v, lines v + 1 <= 2 * things v) /\ (forall o, lines (VObj o) + 1 <= 2 * things_obj o /\ lines_obj o + 2 <= 2 * things_obj o).
Proof.
  assert (S : forall vs, Forall (fun v => lines v + 1 <= 2 * things v) vs ->
    match map lines vs with [] => 1 | [n] => n | ns => 2 + sum ns end + 1 <= 2 * (1 + sum (map things vs))).
  { assert (A : forall vs, Forall (fun v => lines v + 1 <= 2 * things v) vs -> sum (map lines vs) + length vs <= 2 * sum (map things vs)).
    { induction 1 as [|v vs H F IH]; [cbn; lia|]. cbn [map length]. unfold sum in *. cbn [fold_right]. lia. }
    intros vs F. specialize (A vs F). destruct vs as [|v [|w vs]]; [cbn; lia| |].
    - cbn [map] in *. unfold sum in *. cbn [fold_right length] in *. lia.
    - cbn [map length] in *. set (X := sum (lines v :: _)) in *. cbv beta iota. lia. }
  apply value_obj_ind2; try (intros; cbn; lia).
  - intros id t vs IH. apply (S vs IH).
  - intros id t vs IH. apply (S vs IH).
  - intros o [H _]. exact H.
  - intros id ps par IH IHp. 
    assert (A : sum (map (fun fv => match fv with (f, v) => lines v end) ps) + length ps <= 2 * sum (map (fun fv => match fv with (f, v) => things v end) ps)).
    { clear IHp. induction ps as [|[f v] ps IHs]; [cbn; lia|]. inversion_clear IH as [|? ? H F]. specialize (IHs F). cbn [map length] in *. unfold sum in *. cbn [fold_right]. lia. }
    cbn [lines lines_obj things_obj] in *. set (L := sum (map (fun fv => match fv with (f, v) => lines v end) ps)) in *.
    set (T := sum (map (fun fv => match fv with (f, v) => things v end) ps)) in *.
    destruct par as [p|].
    + destruct (IHp p eq_refl) as [H _]. cbn [lines] in H. set (X := match lines_obj p with O => 1 | n => 2 + n end) in *.
      split; [|lia]. destruct (X + L) eqn:E; lia.
    + split; [|lia]. destruct ps as [|x ps]; [subst L T; cbn in *; lia|]. cbn [length] in A. cbn [Nat.add]. destruct L eqn:EL; lia.
Qed.
Theorem C81_two_lines_each o : lines_obj o + 2 <= 2 * things_obj o.
Proof. apply (proj2 lines_things o). Qed.

(** What can be loaded again is written in linearly many characters. *)
Theorem C81_loadable o text : write_to_string o = Some text -> (depth_obj o <= 64)%N ->
  length text <= spelled_obj o + 506 * things_obj o.
Proof.
  intros E D. pose proof (proj2 (C81_length o text E)) as H. pose proof (C81_two_lines_each o) as T.
  assert (lines_obj o * (4 * (N.to_nat (depth_obj o) - 1) + 1) <= lines_obj o * 253) by (apply Nat.mul_le_mono_l; lia). lia.
Qed.

(** Deeper Objs may need more: the indentation is quadratic. *)
Fixpoint nest (n : nat) : obj :=
  match n with O => MkObj 0 [] None | S n => MkObj (N.of_nat (S n)) [(lit "a", VObj (nest n))] None end.
Lemma nest_indent n L : sum (map (fun l => 4 * (L + fst l)) (obj_lines (nest (S n)))) = 4 * (n * n) + 4 * n + 4 * (L * (2 * n + 1)) - 4 * n.
Proof.
  revert L. induction n as [|n IH]; intros L; [cbn; lia|].
  assert (U : exists x, obj_lines (nest (S (S n))) = (O, x) :: map deeper (obj_lines (nest (S n))) ++ [(O, lit "}")]).
  { change (obj_lines (nest (S (S n)))) with (before_first (lit "a: ") (block (VObj (nest (S n)))) ++ []). rewrite app_nil_r.
    cbn [block]. destruct (obj_lines (nest (S n))) eqn:E; [|rewrite <- E; cbn [before_first]; eexists; reflexivity].
    exfalso. cbn [nest obj_lines app flat_map] in E. rewrite app_nil_r in E. pose proof (block_ne (VObj (nest n))) as N.
    destruct (block (VObj (nest n))) as [|[]]; [congruence|discriminate]. }
  destruct U as (x & ->). cbn [map]. rewrite map_app, map_map. unfold sum at 1. cbn [fold_right]. fold sum. rewrite sum_app.
  replace (map (fun l => 4 * (L + fst (deeper l))) (obj_lines (nest (S n)))) with (map (fun l => 4 * (S L + fst l)) (obj_lines (nest (S n))))
    by (apply map_ext; intros l; unfold deeper; cbn [fst]; lia).
  rewrite IH. cbn [map]. unfold sum. cbn [fold_right fst]. lia.
Qed.
Lemma text_indent b : length (text_of b) = chars b + length b + sum (map (fun l => 4 * (0 + fst l)) b).
Proof.
  unfold text_of. induction b as [|l b IH]; [reflexivity|]. cbn [map concat]. rewrite app_length, IH, chars_cons, line_length.
  unfold sum. cbn [fold_right length]. lia.
Qed.
Theorem C81_deep n : exists o text, write_to_string o = Some text /\ things_obj o = n + 2 /\ spelled_obj o = 5 * (n + 1) /\ 4 * (n * n) <= length text.
Proof.
  exists (nest (S n)), (text_of (obj_lines (nest (S n)))). split; [apply C54_written_lines|]. split; [|split].
  - induction n as [|n IH]; [reflexivity|]. change (things_obj (nest (S (S n)))) with (1 + 0 + (things_obj (nest (S n)) + 0)). lia.
  - induction n as [|n IH]; [reflexivity|]. change (spelled_obj (nest (S (S n)))) with (0 + (1 + 2 + (2 + spelled_obj (nest (S n))) + 0)). lia.
  - rewrite text_indent, nest_indent. lia.
Qed.

(** There is no such bound in terms of the text that was loaded: what is shared is written as often as it occurs. *)
Lemma sum_in x l : In x l -> x <= sum l.
Proof. unfold sum. induction l as [|y l IH]; cbn; [tauto|]. intros [->|H]; [lia|]. apply IH in H. lia. Qed.
Theorem C81_not_linear_in_the_source `{U : Unicode} g (k : nat) : exists text o written,
  length text < 2 * (k + 2) * (k + 2) /\ from_str no_fs g text = Some (OOk o) /\ write_to_string o = Some written /\ 2 ^ k <= length written.
Proof.
  destruct (C58_data_not_linear g k) as (text & o & f & s & Hl & Ho & Hf & Hs). exists text, o, (text_of (obj_lines o)).
  split; [exact Hl|]. split; [exact Ho|]. split; [apply C54_written_lines|].
  pose proof (proj1 (C81_length o _ (C54_written_lines o))) as H. rewrite <- Hs. enough (length s <= spelled_obj o) by lia.
  destruct o as [id ps par]. cbn [obj_pairs] in Hf. cbn [spelled_obj]. apply assoc_some in Hf as (l & r & -> & _).
  enough (length f + 2 + spelled (VStr s) <= sum (map (fun fv => match fv with (f, v) => length f + 2 + spelled v end) (l ++ (f, VStr s) :: r))) by (cbn [spelled] in *; lia).
  apply sum_in, in_map_iff. exists (f, VStr s). split; [reflexivity|]. apply in_elt.
Qed.

(** An Int has as many digits as its size requires. *)
Lemma fold_bound w : Forall (fun c => is_digit c = true) w -> forall a,
  (a * 10 ^ N.of_nat (length w) <= fold_left (fun a c => a * 10 + (c - 48)) w a < (a + 1) * 10 ^ N.of_nat (length w))%N.
Proof.
  induction 1 as [|c w H F IH]; intros a; [cbn; lia|]. cbn [fold_left length]. rewrite Nat2N.inj_succ, N.pow_succ_r'.
  specialize (IH (a * 10 + (c - 48))%N). apply digit_range in H. set (T := (10 ^ N.of_nat (length w))%N) in *.
  set (X := fold_left _ _ _) in *. assert (c - 48 <= 9)%N by lia. nia.
Qed.
Theorem C81_ints z : exists n, spelled (VInt z) = (if (z <? 0)%Z then 1 else 0) + n /\
  (z = 0%Z -> n = 1) /\ (z <> 0%Z -> (10 ^ N.of_nat (n - 1) <= Z.abs_N z < 10 ^ N.of_nat n)%N).
Proof.
  exists (length (N_to_dec (Z.abs_N z))). split; [|split].
  - cbn [spelled]. unfold written_int. rewrite app_length. destruct (z <? 0)%Z; reflexivity.
  - intros ->. reflexivity.
  - intros Nz. destruct (C53_decimal (Z.abs_N z)) as (_ & _ & H). specialize (H ltac:(lia)).
    pose proof (dec_digits (Z.abs_N z)) as D. pose proof (dec_val_N (Z.abs_N z)) as V. pose proof (dec_nonempty (Z.abs_N z)) as Ne.
    revert V D H Ne. generalize (N_to_dec (Z.abs_N z)) as w. intros [|c w] V D H Ne; [congruence|]. rewrite <- V. unfold dec_val.
    inversion_clear D as [|? ? Dc Dw]. apply digit_range in Dc. cbn [head] in H. assert (c <> 48%N) by congruence.
    cbn [fold_left length]. pose proof (fold_bound w Dw (0 * 10 + (c - 48))%N) as B. replace (S (length w) - 1) with (length w) by lia.
    rewrite Nat2N.inj_succ, N.pow_succ_r'. set (T := (10 ^ N.of_nat (length w))%N) in *. set (X := fold_left _ _ _) in *. nia.
Qed.

(** So loading again what was written is linear in the data as well. *)
Corollary C81_reading_back `{U : Unicode} g o text : write_to_string o = Some text -> (depth_obj o <= 64)%N ->
  (steps_str no_fs g text <= 5 * N.of_nat (spelled_obj o + 506 * things_obj o) + 3)%N.
Proof.
  intros E D. pose proof (C81_loadable o text E D) as L. pose proof (C58_no_includes g text) as W. lia.
Qed.

(** ** A concrete case *)
Example C81_ex : write_to_string ex_obj <> None /\ lines_obj ex_obj = 13 /\ spelled_obj ex_obj = 51 /\ things_obj ex_obj = 12 /\ depth_obj ex_obj = 3%N /\
  option_map (@length char) (write_to_string ex_obj) = Some 84.
Proof. split; [vm_compute; discriminate|]. vm_compute. auto 10. Qed.
Print Assumptions C81_ints.
Print Assumptions C81_reading_back.
Print Assumptions C81_length.
Print Assumptions C81_display.
Print Assumptions C81_lines.
Print Assumptions C81_two_lines_each.
Print Assumptions C81_loadable.
Print Assumptions C81_deep.
Print Assumptions C81_not_linear_in_the_source.
