(** * PropStream: C47, the unsafe code of CharStream is memory safe and reads exactly the text. *)
From Verif Require Import PosSpec Stream PropDisk.
From Coq Require Import Lia List.
Import ListNotations.
Open Scope N_scope.

(** ** Specification: a stream is a text with the number of characters used up; handles share it. *)
Record astream := mkas { as_file : option str; as_text : str; as_used : nat }.
Definition aworld := (list astream * list (option nat))%type.
Definition op_handle (o : op) : option nat :=
  match o with
  | FromString _ | FromFile _ _ => None
  | Clone k | Drop k | Peek k | Next k | Line k | Col k | File k => Some k
  end.
Inductive spec : aworld -> op -> out -> aworld -> Prop :=
| SNew ss hs t :
    spec (ss, hs) (FromString t) OUnit (ss ++ [mkas None t 0], hs ++ [Some (List.length ss)])
| SNewFile ss hs path bs t :
    rust_string t -> utf8 t = bs ->
    spec (ss, hs) (FromFile path bs) OUnit (ss ++ [mkas (Some path) t 0], hs ++ [Some (List.length ss)])
| SBadFile ss hs path bs :
    (forall t, rust_string t -> utf8 t <> bs) ->
    spec (ss, hs) (FromFile path bs) (OIo invalid_utf8) (ss, hs)
| SClone ss hs k i :
    nth_error hs k = Some (Some i) -> spec (ss, hs) (Clone k) OUnit (ss, hs ++ [Some i])
| SDrop ss hs k i :
    nth_error hs k = Some (Some i) -> spec (ss, hs) (Drop k) OUnit (ss, upd hs k None)
| SPeek ss hs k i a :
    nth_error hs k = Some (Some i) -> nth_error ss i = Some a ->
    spec (ss, hs) (Peek k) (OChar (nth_error (as_text a) (as_used a))) (ss, hs)
| SNext ss hs k i a c :
    nth_error hs k = Some (Some i) -> nth_error ss i = Some a ->
    nth_error (as_text a) (as_used a) = Some c ->
    spec (ss, hs) (Next k) (OChar (Some c)) (upd ss i (mkas (as_file a) (as_text a) (S (as_used a))), hs)
| SNextEnd ss hs k i a :
    nth_error hs k = Some (Some i) -> nth_error ss i = Some a ->
    nth_error (as_text a) (as_used a) = None ->
    spec (ss, hs) (Next k) (OChar None) (ss, hs)
| SLine ss hs k i a l c :
    nth_error hs k = Some (Some i) -> nth_error ss i = Some a ->
    pos_at (firstn (as_used a) (as_text a)) l c ->
    spec (ss, hs) (Line k) (ONum l) (ss, hs)
| SCol ss hs k i a l c :
    nth_error hs k = Some (Some i) -> nth_error ss i = Some a ->
    pos_at (firstn (as_used a) (as_text a)) l c ->
    spec (ss, hs) (Col k) (ONum c) (ss, hs)
| SFile ss hs k i a :
    nth_error hs k = Some (Some i) -> nth_error ss i = Some a ->
    spec (ss, hs) (File k) (OFile (as_file a)) (ss, hs)
| SVoid ss hs o k :
    op_handle o = Some k -> (forall i, nth_error hs k <> Some (Some i)) ->
    spec (ss, hs) o OVoid (ss, hs).
Inductive spec_all : aworld -> list op -> list out -> aworld -> Prop :=
| SNil aw : spec_all aw [] [] aw
| SCons aw o x aw1 os xs aw2 :
    spec aw o x aw1 -> spec_all aw1 os xs aw2 -> spec_all aw (o :: os) (x :: xs) aw2.
(** What Rust's types guarantee of the arguments: strings hold scalar values, bytes are below 256. *)
Definition op_typed (o : op) : Prop :=
  match o with
  | FromString t => rust_string t
  | FromFile _ bs => Forall (fun b => b < 256) bs
  | _ => True
  end.

(** ** Reading a character *)
Lemma load_at h buf pre b post :
  nth_error h buf = Some (Some (pre ++ b :: post)) -> load h buf (List.length pre) = Done b.
Proof.
  intros E. unfold load. rewrite E, nth_error_app2, Nat.sub_diag by lia. auto.
Qed.
Lemma bytes_next_at h buf pre b post e :
  nth_error h buf = Some (Some (pre ++ b :: post)) -> e = List.length (pre ++ b :: post) ->
  bytes_next h (mkchars buf (List.length pre) e) = Done (Some b, mkchars buf (List.length (pre ++ [b])) e).
Proof.
  intros E ->. unfold bytes_next. cbn [c_cur c_end c_buf].
  destruct (Nat.eqb_spec (List.length pre) (List.length (pre ++ b :: post))) as [X|_].
  - rewrite app_length in X. cbn in X. lia.
  - rewrite (load_at _ _ _ _ _ E). cbn [rbind]. do 3 f_equal. rewrite app_length. cbn. lia.
Qed.
Lemma bytes_next_unchecked_at h buf pre b post e :
  nth_error h buf = Some (Some (pre ++ b :: post)) -> e = List.length (pre ++ b :: post) ->
  bytes_next_unchecked h (mkchars buf (List.length pre) e) = Done (b, mkchars buf (List.length (pre ++ [b])) e).
Proof.
  intros E L. unfold bytes_next_unchecked. rewrite (bytes_next_at _ _ _ _ _ _ E L). auto.
Qed.
Lemma char_unchecked_ok c : scalar c -> char_unchecked c = Done c.
Proof.
  unfold scalar, char_unchecked. intros S.
  destruct (N.ltb_spec c 55296), (N.leb_spec 57344 c), (N.ltb_spec c 1114112); cbn; auto; lia.
Qed.
Lemma chars_next_end h buf e : chars_next h (mkchars buf e e) = Done (None, mkchars buf e e).
Proof. unfold chars_next, bytes_next. cbn [c_cur c_end]. rewrite Nat.eqb_refl. auto. Qed.
Section Arith.
Ltac Zify.zify_post_hook ::= Z.to_euclidean_division_equations.
Lemma chars_next_char h buf pre c post e :
  scalar c -> nth_error h buf = Some (Some (pre ++ utf8_char c ++ post)) ->
  e = List.length (pre ++ utf8_char c ++ post) ->
  chars_next h (mkchars buf (List.length pre) e) =
  Done (Some c, mkchars buf (List.length (pre ++ utf8_char c)) e).
Proof.
  intros S E L. pose proof (char_unchecked_ok c S) as CU. unfold scalar in S. unfold utf8_char in *.
  destruct (N.ltb_spec c 128) as [H|H]; [|destruct (N.ltb_spec c 2048) as [H'|H']; [|destruct (N.ltb_spec c 65536) as [H2|H2]]];
    cbn [app] in E, L; unfold chars_next; rewrite (bytes_next_at _ _ _ _ _ _ E L); cbn [rbind].
  - destruct (N.ltb_spec c 128); [|lia]. rewrite CU. auto.
  - destruct (N.ltb_spec (192 + c / 64) 128); [lia|].
    assert (X : forall b r, pre ++ b :: r = (pre ++ [b]) ++ r) by (intros; rewrite <- app_assoc; auto).
    rewrite X in E, L. rewrite (bytes_next_unchecked_at _ _ _ _ _ _ E L). cbn [rbind].
    destruct (N.ltb_spec (192 + c / 64) 224); [|lia]. unfold acc_cont.
    replace ((192 + c / 64) mod 32 * 64 + (128 + c mod 64) mod 64) with c by lia. rewrite CU. cbn [rbind].
    rewrite <- app_assoc. auto.
  - destruct (N.ltb_spec (224 + c / 4096) 128); [lia|].
    assert (X : forall p b (r : list byte), p ++ b :: r = (p ++ [b]) ++ r) by (intros; rewrite <- app_assoc; auto).
    rewrite X in E, L. rewrite (bytes_next_unchecked_at _ _ _ _ _ _ E L). cbn [rbind].
    destruct (N.ltb_spec (224 + c / 4096) 224); [lia|].
    rewrite X in E, L. rewrite (bytes_next_unchecked_at _ _ _ _ _ _ E L). cbn [rbind].
    destruct (N.ltb_spec (224 + c / 4096) 240); [|lia]. unfold acc_cont.
    replace ((224 + c / 4096) mod 32 * 4096 + ((128 + c / 64 mod 64) mod 64 * 64 + (128 + c mod 64) mod 64)) with c.
    2:{ assert (E1 : c / 64 / 64 = c / 4096) by (rewrite N.div_div by lia; reflexivity).
        pose proof (N.div_mod c 64). pose proof (N.div_mod (c / 64) 64). rewrite E1 in *. lia. }
    rewrite CU. cbn [rbind]. rewrite <- !app_assoc. auto.
  - destruct (N.ltb_spec (240 + c / 262144) 128); [lia|].
    assert (X : forall p b (r : list byte), p ++ b :: r = (p ++ [b]) ++ r) by (intros; rewrite <- app_assoc; auto).
    rewrite X in E, L. rewrite (bytes_next_unchecked_at _ _ _ _ _ _ E L). cbn [rbind].
    destruct (N.ltb_spec (240 + c / 262144) 224); [lia|].
    rewrite X in E, L. rewrite (bytes_next_unchecked_at _ _ _ _ _ _ E L). cbn [rbind].
    destruct (N.ltb_spec (240 + c / 262144) 240); [lia|].
    rewrite X in E, L. rewrite (bytes_next_unchecked_at _ _ _ _ _ _ E L). cbn [rbind]. unfold acc_cont.
    replace ((240 + c / 262144) mod 32 mod 8 * 262144 +
             (((128 + c / 4096 mod 64) mod 64 * 64 + (128 + c / 64 mod 64) mod 64) * 64 + (128 + c mod 64) mod 64))
      with c.
    2:{ assert (E1 : c / 64 / 64 = c / 4096) by (rewrite N.div_div by lia; reflexivity).
        assert (E2 : c / 4096 / 64 = c / 262144) by (rewrite N.div_div by lia; reflexivity).
        pose proof (N.div_mod c 64). pose proof (N.div_mod (c / 64) 64). pose proof (N.div_mod (c / 4096) 64).
        rewrite E1, E2 in *.
        assert ((240 + c / 262144) mod 32 mod 8 = c / 262144) as -> by lia.
        assert ((128 + c / 4096 mod 64) mod 64 = c / 4096 mod 64) as -> by lia.
        assert ((128 + c / 64 mod 64) mod 64 = c / 64 mod 64) as -> by lia.
        assert ((128 + c mod 64) mod 64 = c mod 64) as -> by lia. lia. }
    rewrite CU. cbn [rbind]. rewrite <- !app_assoc. auto.
Qed.

(** Valid bytes are the encoding of what they decode to. *)
Lemma decode_sound bs : forall t, Forall (fun b => b < 256) bs -> decode bs = Some t -> rust_string t /\ utf8 t = bs.
Proof.
  induction bs as [bs IH] using (induction_ltof1 _ (@List.length byte)). unfold ltof in IH.
  intros t F D. destruct bs as [|b0 r0]; cbn [decode] in D; [injection D as <-; split; [constructor|auto]|].
  assert (R : forall c r u, (List.length r < List.length (b0 :: r0))%nat -> Forall (fun b => b < 256) r ->
    consc c (decode r) = Some u -> scalar c -> exists v, u = c :: v /\ rust_string u /\ utf8 u = utf8_char c ++ r).
  { intros c r u Lr Fr E S. destruct (decode r) as [v|] eqn:Dr; [|discriminate]. injection E as <-.
    destruct (IH r Lr v Fr Dr) as [HA HB]. exists v. split; auto. split; [constructor; auto|].
    unfold utf8 in *. cbn [flat_map]. rewrite HB. auto. }
  inversion F as [|? ? B0 F0]; subst.
  destruct (N.ltb_spec b0 128).
  { apply R in D as (v & -> & HH1 & HH2); auto; [|left; lia]. split; auto. rewrite HH2. unfold utf8_char.
    destruct (N.ltb_spec b0 128); [auto|lia]. }
  destruct (N.ltb_spec b0 194); [discriminate|]. destruct r0 as [|b1 r1]; [discriminate|].
  inversion F0 as [|? ? B1 F1]; subst.
  destruct (cont b1) eqn:C1; cbn [negb] in D; [|discriminate]. unfold cont in C1.
  destruct (N.leb_spec 128 b1), (N.ltb_spec b1 192); try discriminate.
  destruct (N.ltb_spec b0 224).
  { apply R in D as (v & -> & HH1 & HH2); auto; [|cbn; lia|left; lia]. split; auto. rewrite HH2. unfold utf8_char.
    destruct (N.ltb_spec ((b0 - 192) * 64 + (b1 - 128)) 128); [lia|].
    destruct (N.ltb_spec ((b0 - 192) * 64 + (b1 - 128)) 2048); [|lia].
    cbn [app]. f_equal; [lia|]. f_equal. lia. }
  destruct r1 as [|b2 r2]; [discriminate|]. inversion F1 as [|? ? B2 F2]; subst.
  destruct (cont b2) eqn:C2; cbn [negb] in D; [|discriminate]. unfold cont in C2.
  destruct (N.leb_spec 128 b2), (N.ltb_spec b2 192); try discriminate.
  destruct (N.ltb_spec b0 240).
  { set (c := (b0 - 224) * 4096 + (b1 - 128) * 64 + (b2 - 128)) in *.
    destruct (N.ltb_spec c 2048); [discriminate|].
    assert (SC : scalar c).
    { unfold scalar. destruct (N.leb_spec 55296 c), (N.ltb_spec c 57344); cbn [andb orb] in D; try discriminate; lia. }
    destruct (N.leb_spec 55296 c), (N.ltb_spec c 57344); cbn [andb orb] in D; try discriminate;
    (apply R in D as (v & -> & HH1 & HH2); auto; [|cbn; lia]; split; auto; rewrite HH2; unfold utf8_char;
     destruct (N.ltb_spec c 128); [lia|]; destruct (N.ltb_spec c 2048); [lia|];
     destruct (N.ltb_spec c 65536); [|subst c; lia]; cbn [app];
     assert (c / 4096 = b0 - 224) as -> by (symmetry; apply (N.div_unique c 4096 _ ((b1 - 128) * 64 + (b2 - 128))); subst c; lia);
     assert (c / 64 = (b0 - 224) * 64 + (b1 - 128)) as -> by (symmetry; apply (N.div_unique c 64 _ (b2 - 128)); subst c; lia);
     assert (c mod 64 = b2 - 128) as -> by (symmetry; apply (N.mod_unique c 64 ((b0 - 224) * 64 + (b1 - 128))); subst c; lia);
     f_equal; [lia|]; f_equal; [lia|]; f_equal; lia). }
  destruct r2 as [|b3 r3]; [discriminate|]. inversion F2 as [|? ? B3 F3]; subst.
  destruct (cont b3) eqn:C3; cbn [negb] in D; [|discriminate]. unfold cont in C3.
  destruct (N.leb_spec 128 b3), (N.ltb_spec b3 192); try discriminate.
  set (c := (b0 - 240) * 262144 + (b1 - 128) * 4096 + (b2 - 128) * 64 + (b3 - 128)) in *.
  destruct (N.ltb_spec c 65536); [discriminate|]. destruct (N.leb_spec 1114112 c); [discriminate|].
  destruct (N.leb_spec 245 b0); [discriminate|]. cbn [orb] in D.
  apply R in D as (v & -> & HH1 & HH2); auto; [|cbn; lia|right; lia]. split; auto. rewrite HH2. unfold utf8_char.
  destruct (N.ltb_spec c 128); [lia|]. destruct (N.ltb_spec c 2048); [lia|].
  destruct (N.ltb_spec c 65536); [lia|]. cbn [app].
  assert (c / 262144 = b0 - 240) as -> by (symmetry; apply (N.div_unique c 262144 _ ((b1 - 128) * 4096 + (b2 - 128) * 64 + (b3 - 128))); subst c; lia).
  assert (c / 4096 = (b0 - 240) * 64 + (b1 - 128)) as -> by (symmetry; apply (N.div_unique c 4096 _ ((b2 - 128) * 64 + (b3 - 128))); subst c; lia).
  assert (c / 64 = ((b0 - 240) * 64 + (b1 - 128)) * 64 + (b2 - 128)) as -> by (symmetry; apply (N.div_unique c 64 _ (b3 - 128)); subst c; lia).
  assert (c mod 64 = b3 - 128) as -> by (symmetry; apply (N.mod_unique c 64 (((b0 - 240) * 64 + (b1 - 128)) * 64 + (b2 - 128))); subst c; lia).
  f_equal; [lia|]. f_equal; [lia|]. f_equal; [lia|]. f_equal; lia.
Qed.
End Arith.

(** ** Lists *)
Lemma nth_upd_eq {A} (l : list A) i x y : nth_error l i = Some y -> nth_error (upd l i x) i = Some x.
Proof. revert i; induction l; intros [|i] E; cbn in *; try discriminate; auto. Qed.
Lemma nth_upd_neq {A} (l : list A) i j x : i <> j -> nth_error (upd l i x) j = nth_error l j.
Proof. revert i j; induction l; intros [|i] [|j] E; cbn in *; auto; try congruence. Qed.
Lemma upd_upd {A} (l : list A) i x y : upd (upd l i x) i y = upd l i y.
Proof. revert i; induction l; intros [|i]; cbn; f_equal; auto. Qed.
Lemma upd_same {A} (l : list A) i x : nth_error l i = Some x -> upd l i x = l.
Proof. revert i; induction l; intros [|i] E; cbn in *; try discriminate; f_equal; auto; congruence. Qed.
Lemma upd_length {A} (l : list A) i x : List.length (upd l i x) = List.length l.
Proof. revert i; induction l; intros [|i]; cbn; auto. Qed.

(** ** What the methods do to a world whose cell [i] is alive and not borrowed *)
Section Run.
Context (h : heap) (cells : list (option cell)) (hs : list (option nat)) (i : nat) (r : nat).
Lemma borrow_mut_run x :
  nth_error cells i = Some (Some (mkcell r Unused x)) ->
  borrow_mut i (mkworld h cells hs) = Done (x, mkworld h (upd cells i (Some (mkcell r Exclusive x))) hs).
Proof. intros E. unfold borrow_mut, wbind, get_cell. cbn [w_cells]. rewrite E. reflexivity. Qed.
Lemma release_mut_run x y :
  nth_error cells i = Some (Some (mkcell r Exclusive x)) ->
  release_mut i y (mkworld h cells hs) = Done (tt, mkworld h (upd cells i (Some (mkcell r Unused y))) hs).
Proof. intros E. unfold release_mut, wbind, get_cell. cbn [w_cells]. rewrite E. reflexivity. Qed.
Lemma borrow_run x :
  nth_error cells i = Some (Some (mkcell r Unused x)) ->
  borrow i (mkworld h cells hs) = Done (x, mkworld h (upd cells i (Some (mkcell r (Shared 1) x))) hs).
Proof. intros E. unfold borrow, wbind, get_cell. cbn [w_cells]. rewrite E. reflexivity. Qed.
Lemma release_run x :
  nth_error cells i = Some (Some (mkcell r (Shared 1) x)) ->
  release i (mkworld h cells hs) = Done (tt, mkworld h (upd cells i (Some (mkcell r Unused x))) hs).
Proof. intros E. unfold release, wbind, get_cell. cbn [w_cells]. rewrite E. reflexivity. Qed.
End Run.
Lemma read_run {A} h cells hs i r x (g : inner -> A) :
  nth_error cells i = Some (Some (mkcell r Unused x)) ->
  (let! y := borrow i in let! _ := release i in wret (g y)) (mkworld h cells hs) = Done (g x, mkworld h cells hs).
Proof.
  intros E. unfold wbind at 1. rewrite (borrow_run _ _ _ _ _ _ E). cbn [rbind]. unfold wbind.
  rewrite (release_run _ _ _ _ r x) by (eapply nth_upd_eq; eauto). cbn [rbind wret].
  rewrite upd_upd, upd_same by auto. auto.
Qed.
Lemma write_run h cells hs i r x (g : inner -> inner) :
  nth_error cells i = Some (Some (mkcell r Unused x)) ->
  (let! y := borrow_mut i in release_mut i (g y)) (mkworld h cells hs) =
  Done (tt, mkworld h (upd cells i (Some (mkcell r Unused (g x)))) hs).
Proof.
  intros E. unfold wbind. rewrite (borrow_mut_run _ _ _ _ _ _ E). cbn [rbind].
  rewrite (release_mut_run _ _ _ _ r x) by (eapply nth_upd_eq; eauto). rewrite upd_upd. auto.
Qed.
Definition after_char (c : char) (x : inner) (cs : chars) : inner :=
  let '(l, k) := adv c (i_line x) (i_col x) in mkinner (i_file x) (i_contents x) cs None l k.
Lemma cs_next_run h cells hs i r x o cs :
  nth_error cells i = Some (Some (mkcell r Unused x)) ->
  match i_peeked x with Some o' => o' = o /\ cs = i_chars x | None => chars_next h (i_chars x) = Done (o, cs) end ->
  cs_next i (mkworld h cells hs) =
  Done (o, mkworld h (upd cells i (Some (mkcell r Unused
             match o with
             | Some c => after_char c x cs
             | None => mkinner (i_file x) (i_contents x) cs None (i_line x) (i_col x)
             end))) hs).
Proof.
  intros E P. unfold cs_next. unfold wbind at 1. rewrite (borrow_mut_run _ _ _ _ _ _ E). cbn [rbind].
  unfold wbind at 1.
  set (w1 := mkworld h (upd cells i (Some (mkcell r Exclusive x))) hs).
  assert ((match i_peeked x with
           | Some o0 => wret (o0, i_chars x)
           | None => chars_next_w (i_chars x) end w1) = Done ((o, cs), w1)) as ->.
  { destruct (i_peeked x); [destruct P as [-> ->]; reflexivity|]. unfold chars_next_w, w1. cbn [w_heap].
    rewrite P. reflexivity. }
  cbn [rbind]. unfold wbind at 1. unfold w1.
  rewrite (release_mut_run _ _ _ _ r x) by (eapply nth_upd_eq; eauto). rewrite upd_upd. cbn [rbind].
  destruct o as [c|]; [|reflexivity].
  set (x1 := mkinner (i_file x) (i_contents x) cs None (i_line x) (i_col x)).
  assert (E1 : nth_error (upd cells i (Some (mkcell r Unused x1))) i = Some (Some (mkcell r Unused x1)))
    by (eapply nth_upd_eq; eauto).
  unfold after_char, adv. destruct (c =? c_nl).
  - unfold wbind at 1 2. unfold cs_line. rewrite (read_run _ _ _ _ _ _ _ E1). cbn [rbind].
    unfold wbind at 1. unfold cs_set_line at 1.
    rewrite (write_run _ _ _ _ _ _ (fun y => mkinner (i_file y) (i_contents y) (i_chars y) (i_peeked y) (i_line x1 + 1) (i_col y)) E1).
    cbn [rbind]. unfold cs_set_col.
    rewrite (write_run _ _ _ _ r _ (fun y => mkinner (i_file y) (i_contents y) (i_chars y) (i_peeked y) (i_line y) 1)
      (nth_upd_eq _ _ _ _ E1)).
    cbn [rbind wret]. rewrite !upd_upd. reflexivity.
  - unfold wbind at 1 2. unfold cs_col. rewrite (read_run _ _ _ _ _ _ _ E1). cbn [rbind].
    unfold cs_set_col.
    rewrite (write_run _ _ _ _ r _ (fun y => mkinner (i_file y) (i_contents y) (i_chars y) (i_peeked y) (i_line y) (i_col x1 + 1)) E1).
    cbn [rbind wret]. rewrite !upd_upd. reflexivity.
Qed.
Lemma cs_peek_run h cells hs i r x o cs :
  nth_error cells i = Some (Some (mkcell r Unused x)) ->
  match i_peeked x with Some o' => o' = o /\ cs = i_chars x | None => chars_next h (i_chars x) = Done (o, cs) end ->
  cs_peek i (mkworld h cells hs) =
  Done (o, mkworld h (upd cells i (Some (mkcell r Unused
             (mkinner (i_file x) (i_contents x) cs (Some o) (i_line x) (i_col x))))) hs).
Proof.
  intros E P. unfold cs_peek. unfold wbind at 1. rewrite (borrow_mut_run _ _ _ _ _ _ E). cbn [rbind].
  destruct x as [f b cs0 pk l k]. cbn [i_peeked i_chars i_file i_contents i_line i_col] in *. destruct pk as [o'|].
  - destruct P as [-> ->]. unfold wbind.
    rewrite (release_mut_run _ _ _ _ r _ _ (nth_upd_eq _ _ _ _ E)). cbn [rbind wret]. rewrite upd_upd. auto.
  - unfold wbind at 1. unfold chars_next_w. cbn [w_heap]. rewrite P. cbn [rbind]. unfold wbind.
    rewrite (release_mut_run _ _ _ _ r _ _ (nth_upd_eq _ _ _ _ E)). cbn [rbind wret]. rewrite upd_upd. auto.
Qed.

(** ** The invariant *)
Definition bytes_before (a : astream) (n : nat) : nat := List.length (utf8 (firstn n (as_text a))).
Definition inner_ok (h : heap) (i : nat) (a : astream) (x : inner) : Prop :=
  i_file x = as_file a /\ i_contents x = i /\
  rust_string (as_text a) /\ nth_error h i = Some (Some (utf8 (as_text a))) /\
  (as_used a <= List.length (as_text a))%nat /\
  c_buf (i_chars x) = i /\ c_end (i_chars x) = List.length (utf8 (as_text a)) /\
  c_cur (i_chars x) = bytes_before a (match i_peeked x with None => as_used a | Some _ => S (as_used a) end) /\
  (forall o, i_peeked x = Some o -> o = nth_error (as_text a) (as_used a)) /\
  pos_at (firstn (as_used a) (as_text a)) (i_line x) (i_col x).
Definition refs (hs : list (option nat)) (i : nat) : nat :=
  List.length (filter (fun o => match o with Some j => Nat.eqb i j | None => false end) hs).
Definition cell_ok (h : heap) (n : nat) (i : nat) (a : astream) (c : option cell) : Prop :=
  match n with
  | O => c = None /\ nth_error h i = Some None
  | S _ => exists x, c = Some (mkcell n Unused x) /\ inner_ok h i a x
  end.
Definition inv (w : world) (aw : aworld) : Prop :=
  w_handles w = snd aw /\
  List.length (w_heap w) = List.length (fst aw) /\ List.length (w_cells w) = List.length (fst aw) /\
  (forall k i, nth_error (snd aw) k = Some (Some i) -> (i < List.length (fst aw))%nat) /\
  (forall i a, nth_error (fst aw) i = Some a ->
     exists c, nth_error (w_cells w) i = Some c /\ cell_ok (w_heap w) (refs (snd aw) i) i a c).

Lemma utf8_app a b : utf8 (a ++ b) = utf8 a ++ utf8 b.
Proof. apply flat_map_app. Qed.
(** The iterator of a stream in order reads the next character of the text. *)
Lemma chars_next_ok h i a n :
  rust_string (as_text a) -> nth_error h i = Some (Some (utf8 (as_text a))) -> (n <= List.length (as_text a))%nat ->
  chars_next h (mkchars i (bytes_before a n) (List.length (utf8 (as_text a)))) =
  Done (nth_error (as_text a) n, mkchars i (bytes_before a (S n)) (List.length (utf8 (as_text a)))).
Proof.
  intros RS E L. unfold bytes_before. destruct (nth_error (as_text a) n) as [c|] eqn:En.
  - destruct (nth_error_split _ _ En) as (pre & post & Et & <-).
    assert (F1 : firstn (List.length pre) (as_text a) = pre).
    { rewrite Et, firstn_app, firstn_all, Nat.sub_diag, app_nil_r. auto. }
    assert (F2 : firstn (S (List.length pre)) (as_text a) = pre ++ [c]).
    { rewrite Et. change (c :: post) with ([c] ++ post). rewrite app_assoc, firstn_app.
      rewrite firstn_all2 by (rewrite app_length; cbn; lia).
      rewrite app_length. cbn [List.length]. replace (S (List.length pre) - (List.length pre + 1))%nat with 0%nat by lia.
      cbn. rewrite app_nil_r. auto. }
    assert (F3 : utf8 (pre ++ [c]) = utf8 pre ++ utf8_char c).
    { rewrite utf8_app. unfold utf8 at 2. cbn [flat_map]. rewrite app_nil_r. auto. }
    rewrite F1, F2, F3.
    assert (U : utf8 (as_text a) = utf8 pre ++ utf8_char c ++ utf8 post).
    { rewrite Et at 1. rewrite utf8_app. unfold utf8 at 2. cbn [flat_map]. auto. }
    rewrite U in *. eapply chars_next_char; eauto.
    unfold rust_string in RS. rewrite Et in RS. apply Forall_app in RS as [_ RS]. inversion RS; auto.
  - apply nth_error_None in En. rewrite !firstn_all2 by lia. apply chars_next_end.
Qed.
Lemma pos_step pre l k c : pos_at pre l k -> pos_at (pre ++ [c]) (fst (adv c l k)) (snd (adv c l k)).
Proof.
  intros (-> & lines & last & -> & NN & HL & ->). unfold pos_at, adv. destruct (N.eqb_spec c c_nl) as [->|NE]; cbn [fst snd].
  - split; [rewrite (count_occ_app _ (lines ++ last) [c_nl]); cbn [count_occ];
      destruct (N.eq_dec c_nl c_nl); [|congruence]; lia|].
    exists ((lines ++ last) ++ [c_nl]), []. rewrite app_nil_r.
    split; [auto|]. split; [constructor|]. split; [right; eauto|reflexivity].
  - split; [rewrite (count_occ_app _ (lines ++ last) [c]); cbn [count_occ]; destruct (N.eq_dec c c_nl); [congruence|]; lia|].
    exists lines, (last ++ [c]). rewrite app_assoc. repeat split; auto.
    + apply Forall_app. split; auto.
    + rewrite app_length. cbn [List.length]. lia.
Qed.
Lemma firstn_succ {A} (l : list A) n c : nth_error l n = Some c -> firstn (S n) l = firstn n l ++ [c].
Proof. revert n; induction l; intros [|n] E; cbn in *; try discriminate; [congruence|]. f_equal. auto. Qed.

(** ** Every operation *)
Lemma refs_app hs hs' i : refs (hs ++ hs') i = (refs hs i + refs hs' i)%nat.
Proof. unfold refs. rewrite filter_app, app_length. auto. Qed.
Lemma refs_pos hs k i : nth_error hs k = Some (Some i) -> exists n, refs hs i = S n.
Proof.
  revert k; induction hs as [|o hs IH]; intros [|k] E; cbn in E; try discriminate; unfold refs in *; cbn [filter].
  - injection E as ->. rewrite Nat.eqb_refl. cbn. eauto.
  - destruct (IH _ E) as [n En]. destruct (match o with Some j => Nat.eqb i j | None => false end); cbn; eauto.
Qed.
Lemma refs_zero hs i : refs hs i = O <-> forall k, nth_error hs k <> Some (Some i).
Proof.
  split.
  - intros E k H. apply refs_pos in H as [n H]. congruence.
  - unfold refs. induction hs as [|o hs IH]; intros H; auto. cbn [filter].
    destruct o as [j|].
    + destruct (Nat.eqb_spec i j) as [->|]; [exfalso; apply (H O); auto|]. apply IH. intros k. apply (H (S k)).
    + apply IH. intros k. apply (H (S k)).
Qed.
Lemma refs_drop hs k i j : nth_error hs k = Some (Some i) ->
  refs hs j = (refs (upd hs k None) j + (if Nat.eqb j i then 1 else 0))%nat.
Proof.
  unfold refs. revert k; induction hs as [|o hs IH]; intros [|k] E; cbn in E; try discriminate; cbn [upd filter].
  - injection E as ->. destruct (Nat.eqb j i); cbn; lia.
  - pose proof (IH _ E) as X. destruct (match o with Some j0 => Nat.eqb j j0 | None => false end); cbn; lia.
Qed.

(** A change of cell [i] alone that keeps its handles and the heap. *)
Lemma inv_change h cells ss hs i a a' r x x' :
  inv (mkworld h cells hs) (ss, hs) -> nth_error ss i = Some a -> refs hs i = r -> (0 < r)%nat ->
  nth_error cells i = Some (Some (mkcell r Unused x)) -> inner_ok h i a' x' ->
  inv (mkworld h (upd cells i (Some (mkcell r Unused x'))) hs) (upd ss i a', hs).
Proof.
  intros (I1 & I2 & I3 & I4 & I5) Ea Er R Ec OK. unfold inv in *. cbn [fst snd w_heap w_cells w_handles] in *.
  rewrite !upd_length. split; [auto|split; [auto|split; [auto|split; [auto|]]]].
  intros j b Eb. destruct (Nat.eq_dec i j) as [<-|N].
  - rewrite (nth_upd_eq _ _ _ _ Ea) in Eb. injection Eb as <-. exists (Some (mkcell r Unused x')).
    split; [eapply nth_upd_eq; eauto|]. rewrite Er. destruct r; [lia|]. cbn. eauto.
  - rewrite nth_upd_neq in Eb by auto. rewrite nth_upd_neq by auto. auto.
Qed.
Lemma live_cell h cells ss hs k i :
  inv (mkworld h cells hs) (ss, hs) -> nth_error hs k = Some (Some i) ->
  exists a x n, nth_error ss i = Some a /\ refs hs i = S n /\
    nth_error cells i = Some (Some (mkcell (S n) Unused x)) /\ inner_ok h i a x.
Proof.
  intros (I1 & I2 & I3 & I4 & I5) E. cbn [fst snd w_heap w_cells w_handles] in *.
  pose proof (I4 _ _ E) as L. destruct (nth_error ss i) as [a|] eqn:Ea.
  2:{ apply nth_error_None in Ea. lia. }
  destruct (refs_pos _ _ _ E) as [n En]. destruct (I5 _ _ Ea) as (c & Ec & OK). rewrite En in OK. cbn in OK.
  destruct OK as (x & -> & OK). exists a, x, n. auto.
Qed.
Lemma inner_chars h i a x : inner_ok h i a x ->
  match i_peeked x with
  | Some o' => o' = nth_error (as_text a) (as_used a) /\
               i_chars x = mkchars i (bytes_before a (S (as_used a))) (List.length (utf8 (as_text a)))
  | None => chars_next h (i_chars x) =
            Done (nth_error (as_text a) (as_used a),
                  mkchars i (bytes_before a (S (as_used a))) (List.length (utf8 (as_text a))))
  end.
Proof.
  intros (F & Cn & RS & Hb & L & B & En & Cu & P & Ps). destruct x as [f b [cb cc ce] pk l k].
  cbn [i_file i_contents i_chars i_peeked c_buf c_cur c_end] in *. subst. destruct pk as [o|].
  - split; auto.
  - apply chars_next_ok; auto.
Qed.
Lemma inv_new w aw file t :
  inv w aw -> rust_string t ->
  exists w', from_string_impl file (utf8 t) w = Done (tt, w') /\
    inv w' (fst aw ++ [mkas file t 0], snd aw ++ [Some (List.length (fst aw))]).
Proof.
  intros (I1 & I2 & I3 & I4 & I5) RS. eexists. split; [reflexivity|].
  unfold inv. cbn [fst snd w_heap w_cells w_handles]. rewrite !app_length. cbn [List.length].
  split; [congruence|]. split; [lia|]. split; [lia|]. split.
  - intros k i E. destruct (Nat.lt_ge_cases k (List.length (snd aw))).
    + rewrite nth_error_app1 in E by auto. apply I4 in E. lia.
    + rewrite nth_error_app2 in E by auto. destruct (k - List.length (snd aw))%nat as [|[|m]]; cbn in E; try discriminate.
      injection E as <-. lia.
  - intros i a E. rewrite refs_app. destruct (Nat.lt_ge_cases i (List.length (fst aw))) as [L|L].
    + rewrite nth_error_app1 in E by auto. destruct (I5 _ _ E) as (c & Ec & OK). exists c.
      rewrite nth_error_app1 by lia. split; auto. unfold refs at 2. cbn [filter].
      destruct (Nat.eqb_spec i (List.length (fst aw))); [lia|]. cbn [List.length]. rewrite Nat.add_0_r.
      destruct (refs (snd aw) i) as [|n0]; cbn [cell_ok] in *.
      * destruct OK as [-> OK]. split; auto. rewrite nth_error_app1; auto. apply nth_error_Some. congruence.
      * destruct OK as (x & -> & OK). exists x. split; auto.
        destruct OK as (F & Cn & RS' & Hb & OK). repeat (split; auto; try apply OK).
        rewrite nth_error_app1; auto. apply nth_error_Some. congruence.
    + rewrite nth_error_app2 in E by auto.
      destruct (i - List.length (fst aw))%nat as [|[|m]] eqn:D; cbn in E; try discriminate. injection E as <-.
      assert (i = List.length (fst aw)) as -> by lia.
      rewrite nth_error_app2, I3, Nat.sub_diag by lia. eexists. split; [reflexivity|].
      assert (refs (snd aw) (List.length (fst aw)) = 0%nat) as ->.
      { apply refs_zero. intros k E. apply I4 in E. lia. }
      unfold refs. cbn [filter]. rewrite Nat.eqb_refl. cbn [List.length Nat.add cell_ok].
      eexists. split; [reflexivity|]. unfold inner_ok. cbn [i_file i_contents i_chars i_peeked i_line i_col c_buf c_cur c_end as_file as_text as_used].
      rewrite nth_error_app2, I2, Nat.sub_diag by lia.
      repeat (split; [auto; lia|]). split; [discriminate|]. cbn. split; [auto|].
      exists [], []. repeat split; auto. constructor.
Qed.

Lemma step_ok o w aw : inv w aw -> op_typed o ->
  exists x w' aw', exec o w = Done (x, w') /\ spec aw o x aw' /\ inv w' aw'.
Proof.
  intros I T. destruct aw as [ss hs]. destruct w as [h cells hs'].
  assert (hs' = hs) by apply I. subst hs'.
  assert (V : forall k f, op_handle o = Some k -> exec o = on_handle k f ->
    (forall i, nth_error hs k = Some (Some i) -> exists x w' aw', f i (mkworld h cells hs) = Done (x, w') /\
       spec (ss, hs) o x aw' /\ inv w' aw') ->
    exists x w' aw', exec o (mkworld h cells hs) = Done (x, w') /\ spec (ss, hs) o x aw' /\ inv w' aw').
  { intros k f Ho -> Hf. unfold on_handle. cbn [w_handles].
    destruct (nth_error hs k) as [[i|]|] eqn:E; auto;
      (do 3 eexists; split; [reflexivity|split; [eapply SVoid; [eauto|congruence]|auto]]). }
  destruct o as [t|path bs|k|k|k|k|k|k|k].
  - destruct (inv_new _ _ None t I T) as (w' & E & I'). cbn [exec]. unfold wmap, wbind. rewrite E. cbn [rbind wret].
    do 3 eexists. split; [reflexivity|]. split; [apply SNew|auto].
  - cbn [exec]. cbn [op_typed] in T. unfold read_bytes. destruct (decode bs) as [t|] eqn:D.
    + destruct (decode_sound _ _ T D) as [RS <-].
      destruct (inv_new _ _ (Some path) t I RS) as (w' & E & I'). unfold wmap, wbind. rewrite E. cbn [rbind wret].
      do 3 eexists. split; [reflexivity|]. split; [eapply SNewFile; eauto|]. exact I'.
    + do 3 eexists. split; [reflexivity|]. split; [apply SBadFile|auto].
      intros t RS <-. rewrite decode_utf8 in D by auto. discriminate.
  - eapply (V k); try reflexivity. intros i Ek.
    destruct (live_cell _ _ _ _ _ _ I Ek) as (a & x & n & Ea & En & Ec & OK).
    unfold wmap, wbind at 1, cs_clone, wbind at 1, get_cell. cbn [w_cells]. rewrite Ec. cbn [rbind]. unfold wbind, put_cell.
    cbn [rbind wret w_heap w_cells w_handles ce_rc ce_borrow ce_inner].
    do 3 eexists. split; [reflexivity|]. split; [eapply SClone; eauto|].
    destruct I as (I1 & I2 & I3 & I4 & I5). unfold inv. cbn [fst snd w_heap w_cells w_handles] in *.
    rewrite upd_length. split; [auto|split; [auto|split; [auto|split]]].
    + intros k' j E. destruct (Nat.lt_ge_cases k' (List.length hs)).
      * rewrite nth_error_app1 in E by auto. eauto.
      * rewrite nth_error_app2 in E by auto. destruct (k' - List.length hs)%nat as [|[|m]]; cbn in E; try discriminate.
        injection E as <-. eauto.
    + intros j b Eb. rewrite refs_app. unfold refs at 2. cbn [filter]. destruct (Nat.eqb_spec j i) as [->|NE].
      * eexists. split; [eapply nth_upd_eq; eauto|]. rewrite En. cbn [List.length].
        replace (S n + 1)%nat with (S (S n)) by lia. cbn [cell_ok]. exists x. split; auto. congruence.
      * rewrite nth_upd_neq by auto. cbn [List.length]. rewrite Nat.add_0_r. auto.
  - eapply (V k); try reflexivity. intros i Ek.
    destruct (live_cell _ _ _ _ _ _ I Ek) as (a & x & n & Ea & En & Ec & OK).
    pose proof OK as (F & Cn & RS & Hb & _).
    unfold wmap, wbind at 1, cs_drop, wbind at 1, get_cell. cbn [w_cells]. rewrite Ec. cbn [rbind ce_rc ce_inner ce_borrow].
    pose proof I as (I1 & I2 & I3 & I4 & I5). cbn [fst snd w_heap w_cells w_handles] in *.
    assert (I4' : forall k' j, nth_error (upd hs k None) k' = Some (Some j) -> (j < List.length ss)%nat).
    { intros k' j E. destruct (Nat.eq_dec k k') as [<-|NE].
      - rewrite (nth_upd_eq _ _ _ _ Ek) in E. discriminate.
      - rewrite nth_upd_neq in E by auto. eauto. }
    destruct n as [|n].
    + unfold wbind. rewrite Cn. unfold dealloc. cbn [w_heap]. rewrite Hb. cbn [rbind wret w_heap w_cells w_handles].
      do 3 eexists. split; [reflexivity|]. split; [eapply SDrop; eauto|].
      unfold inv. cbn [fst snd w_heap w_cells w_handles]. rewrite !upd_length.
      split; [auto|split; [auto|split; [auto|split; [auto|]]]].
      intros j b Eb. pose proof (refs_drop _ _ _ j Ek) as RD. destruct (Nat.eqb_spec j i) as [->|NE].
      * assert (refs (upd hs k None) i = 0%nat) as -> by lia. eexists. split; [eapply nth_upd_eq; eauto|].
        cbn. split; auto. eapply nth_upd_eq; eauto.
      * rewrite Nat.add_0_r in RD. rewrite <- RD. rewrite nth_upd_neq by auto.
        destruct (I5 _ _ Eb) as (c & Ec' & OK'). exists c. split; auto.
        destruct (refs hs j); cbn [cell_ok] in *.
        -- destruct OK' as [-> OK']. split; auto. rewrite nth_upd_neq; auto.
        -- destruct OK' as (y & -> & OK'). exists y. split; auto. unfold inner_ok in *. rewrite nth_upd_neq by auto. auto.
    + unfold wbind, put_cell. cbn [rbind wret w_heap w_cells w_handles].
      do 3 eexists. split; [reflexivity|]. split; [eapply SDrop; eauto|].
      unfold inv. cbn [fst snd w_heap w_cells w_handles]. rewrite !upd_length.
      split; [auto|split; [auto|split; [auto|split; [auto|]]]].
      intros j b Eb. pose proof (refs_drop _ _ _ j Ek) as RD. destruct (Nat.eqb_spec j i) as [->|NE].
      * assert (refs (upd hs k None) i = S n) as -> by lia. eexists. split; [eapply nth_upd_eq; eauto|].
        cbn [cell_ok]. exists x. split; auto. congruence.
      * rewrite Nat.add_0_r in RD. rewrite <- RD. rewrite nth_upd_neq by auto. auto.
  - eapply (V k); try reflexivity. intros i Ek.
    destruct (live_cell _ _ _ _ _ _ I Ek) as (a & x & n & Ea & En & Ec & OK).
    unfold wmap, wbind at 1.
    rewrite (cs_peek_run _ _ _ _ _ _ (nth_error (as_text a) (as_used a))
       (mkchars i (bytes_before a (S (as_used a))) (List.length (utf8 (as_text a)))) Ec).
    2:{ pose proof (inner_chars _ _ _ _ OK) as X. destruct (i_peeked x); intuition congruence. }
    cbn [rbind wret]. do 3 eexists. split; [reflexivity|]. split; [eapply SPeek; eauto|].
    rewrite <- (upd_same _ _ _ Ea) at 1. eapply inv_change; eauto; try lia.
    destruct OK as (F & Cn & RS & Hb & L & B & Ce & Cu & P & Ps).
    unfold inner_ok. cbn [i_file i_contents i_chars i_peeked i_line i_col c_buf c_cur c_end].
    do 8 (split; [auto|]). split; [congruence|auto].
  - eapply (V k); try reflexivity. intros i Ek.
    destruct (live_cell _ _ _ _ _ _ I Ek) as (a & x & n & Ea & En & Ec & OK).
    unfold wmap, wbind at 1.
    rewrite (cs_next_run _ _ _ _ _ _ (nth_error (as_text a) (as_used a))
       (mkchars i (bytes_before a (S (as_used a))) (List.length (utf8 (as_text a)))) Ec).
    2:{ pose proof (inner_chars _ _ _ _ OK) as X. destruct (i_peeked x); intuition congruence. }
    cbn [rbind wret]. pose proof OK as (F & Cn & RS & Hb & L & B & Ce & Cu & P & Ps).
    destruct (nth_error (as_text a) (as_used a)) as [c|] eqn:Ech.
    + do 3 eexists. split; [reflexivity|]. split; [eapply SNext; eauto|].
      eapply inv_change; eauto; try lia. unfold after_char. pose proof (pos_step _ _ _ c Ps) as PS.
      destruct (adv c (i_line x) (i_col x)) as [l' k'].
      unfold inner_ok. cbn [i_file i_contents i_chars i_peeked i_line i_col c_buf c_cur c_end as_file as_text as_used].
      assert (as_used a < List.length (as_text a))%nat by (apply nth_error_Some; congruence).
      split; [auto|]. split; [auto|]. split; [auto|]. split; [auto|]. split; [lia|]. split; [auto|]. split; [auto|].
      split; [reflexivity|]. split; [discriminate|]. rewrite (firstn_succ _ _ _ Ech). auto.
    + do 3 eexists. split; [reflexivity|]. split; [eapply SNextEnd; eauto|].
      rewrite <- (upd_same _ _ _ Ea) at 1. eapply inv_change; eauto; try lia.
      unfold inner_ok. cbn [i_file i_contents i_chars i_peeked i_line i_col c_buf c_cur c_end].
      split; [auto|]. split; [auto|]. split; [auto|]. split; [auto|]. split; [lia|]. split; [auto|]. split; [auto|].
      split; [|split; [discriminate|auto]]. apply nth_error_None in Ech. unfold bytes_before.
      rewrite !firstn_all2 by lia. auto.
  - eapply (V k); try reflexivity. intros i Ek.
    destruct (live_cell _ _ _ _ _ _ I Ek) as (a & x & n & Ea & En & Ec & OK).
    unfold wmap, wbind at 1, cs_line. rewrite (read_run _ _ _ _ _ _ _ Ec). cbn [rbind wret].
    do 3 eexists. split; [reflexivity|]. split; [eapply SLine; eauto; apply OK|auto].
  - eapply (V k); try reflexivity. intros i Ek.
    destruct (live_cell _ _ _ _ _ _ I Ek) as (a & x & n & Ea & En & Ec & OK).
    unfold wmap, wbind at 1, cs_col. rewrite (read_run _ _ _ _ _ _ _ Ec). cbn [rbind wret].
    do 3 eexists. split; [reflexivity|]. split; [eapply SCol; eauto; apply OK|auto].
  - eapply (V k); try reflexivity. intros i Ek.
    destruct (live_cell _ _ _ _ _ _ I Ek) as (a & x & n & Ea & En & Ec & OK).
    unfold wmap, wbind at 1, cs_file. rewrite (read_run _ _ _ _ _ _ _ Ec). cbn [rbind wret].
    assert (i_file x = as_file a) as -> by apply OK.
    do 3 eexists. split; [reflexivity|]. split; [eapply SFile; eauto|auto].
Qed.

(** ** C47 *)
Lemma run_ok os : forall w aw, inv w aw -> Forall op_typed os ->
  exists xs w' aw', exec_all os w = Done (xs, w') /\ spec_all aw os xs aw' /\ inv w' aw'.
Proof.
  induction os as [|o os IH]; intros w aw I T.
  - do 3 eexists. split; [reflexivity|]. split; [constructor|auto].
  - inversion T as [|? ? To Tos]; subst. destruct (step_ok o w aw I To) as (x & w1 & aw1 & E1 & S1 & I1).
    destruct (IH w1 aw1 I1 Tos) as (xs & w2 & aw2 & E2 & S2 & I2).
    exists (x :: xs), w2, aw2. cbn [exec_all]. unfold wbind. rewrite E1. cbn [rbind]. rewrite E2. cbn [rbind].
    split; [reflexivity|]. split; [econstructor; eauto|auto].
Qed.
Lemma inv0 : inv world0 ([], []).
Proof.
  unfold inv. cbn. repeat split; auto; intros [|]; discriminate.
Qed.

(** Whatever program creates, clones, drops and reads streams, in whatever order: nothing undefined happens, no
    RefCell is borrowed twice, and every result is the one of the texts read character by character, with the
    lines and columns of the positions; a file is accepted exactly if its bytes are the UTF-8 of a text. *)
Theorem C47_streams_are_safe_and_exact os :
  Forall op_typed os ->
  exists outs w aw, exec_all os world0 = Done (outs, w) /\ spec_all ([], []) os outs aw.
Proof.
  intros T. destruct (run_ok os world0 ([], []) inv0 T) as (xs & w & aw & E & S & _). eauto.
Qed.

(** A buffer is freed exactly when the last handle to its stream is dropped: never while one is left, and never
    twice (a second free would be UB). *)
Theorem C47_buffers_live_as_long_as_handles os outs w :
  Forall op_typed os -> exec_all os world0 = Done (outs, w) ->
  forall i, (i < List.length (w_heap w))%nat ->
    ((exists bs, nth_error (w_heap w) i = Some (Some bs)) <-> exists k, nth_error (w_handles w) k = Some (Some i)).
Proof.
  intros T E i L. destruct (run_ok os world0 ([], []) inv0 T) as (xs & w' & aw & E' & S & I).
  assert (w' = w) by congruence. subst w'. destruct I as (I1 & I2 & I3 & I4 & I5). rewrite I1, I2 in *.
  destruct (nth_error (fst aw) i) as [a|] eqn:Ea; [|apply nth_error_None in Ea; lia].
  destruct (I5 _ _ Ea) as (c & Ec & OK). destruct (refs (snd aw) i) as [|n] eqn:R; cbn [cell_ok] in OK.
  - destruct OK as [_ OK]. split; [intros [bs X]; congruence|]. intros [k X]. exfalso. revert X. apply refs_zero; auto.
  - destruct OK as (x & -> & OK). split; [|intros _; eexists; apply OK].
    intros _. assert (refs (snd aw) i <> 0%nat) as N by lia. rewrite refs_zero in N.
    destruct (existsb (fun o => match o with Some j => Nat.eqb i j | None => false end) (snd aw)) eqn:X.
    + apply existsb_exists in X as (o & Io & Eo). destruct o as [j|]; [|discriminate]. apply Nat.eqb_eq in Eo. subst j.
      apply In_nth_error in Io. auto.
    + exfalso. apply N. intros k Ek. assert (Y : existsb (fun o => match o with Some j => Nat.eqb i j | None => false end) (snd aw) = true).
      { apply existsb_exists. exists (Some i). split; [eapply nth_error_In; eauto|apply Nat.eqb_refl]. }
      congruence.
Qed.

(** Two runs of the same program give the same results (the specification leaves no choice). *)
Lemma pos_at_fun pre l c l' c' : pos_at pre l c -> pos_at pre l' c' -> l = l' /\ c = c'.
Proof.
  intros (-> & lines & last & E & NN & HL & ->) (-> & lines' & last' & E' & NN' & HL' & ->). split; auto.
  assert (last = last'); [|congruence].
  assert (X : forall a b a' b' : str, a ++ b = a' ++ b' -> no_nl b -> (List.length b' <= List.length b)%nat ->
     (a' = [] \/ exists z, a' = z ++ [c_nl]) -> b = b').
  { intros a b a' b' Eq Nb Le Ha'. assert (exists m, a' = a ++ m /\ b = m ++ b') as (m & -> & ->).
    { clear - Eq Le. revert a' Eq. induction a as [|z a IH]; intros a' Eq; cbn in *.
      - subst. exists a'. auto.
      - destruct a' as [|z' a']; cbn in Eq.
        + subst. cbn in Le. rewrite app_length in Le. cbn in Le. lia.
        + injection Eq as <- Eq. destruct (IH _ Eq) as (m & -> & ->). exists m. auto. }
    destruct m as [|y m] using rev_ind; auto. exfalso. destruct Ha' as [Ha'|[z Ha']].
    - destruct a; destruct m; discriminate.
    - rewrite app_assoc in Ha'. apply app_inj_tail in Ha' as [_ ->].
      unfold no_nl in Nb. rewrite !Forall_app in Nb. destruct Nb as [[_ Nb] _]. inversion Nb; congruence. }
  subst pre. destruct (Nat.le_ge_cases (List.length last) (List.length last')).
  - symmetry. eapply (X lines' last' lines last); eauto.
  - eapply (X lines last lines' last'); eauto.
Qed.
Lemma utf8_inj a b : rust_string a -> rust_string b -> utf8 a = utf8 b -> a = b.
Proof. intros A B E. apply decode_utf8 in A, B. congruence. Qed.
Theorem C47_spec_deterministic aw o x aw1 y aw2 :
  spec aw o x aw1 -> spec aw o y aw2 -> x = y /\ aw1 = aw2.
Proof.
  intros S1 S2.
  destruct S1; inversion S2; subst; cbn [op_handle] in *; try discriminate;
    repeat match goal with
    | H : Some _ = Some _ |- _ => injection H as H; try subst
    | H1 : nth_error ?l ?k = Some _, H2 : nth_error ?l ?k = Some _ |- _ =>
        rewrite H1 in H2; injection H2 as H2; try subst
    | H1 : nth_error ?l ?k = Some _, H2 : nth_error ?l ?k = None |- _ => congruence
    | H1 : forall i, nth_error ?l ?k <> Some (Some i), H2 : nth_error ?l ?k = Some (Some _) |- _ =>
        exfalso; eapply H1; eauto
    | H1 : pos_at ?p _ _, H2 : pos_at ?p _ _ |- _ =>
        destruct (pos_at_fun _ _ _ _ _ H1 H2); clear H2; subst
    end; auto.
  - assert (t = t0) by (apply utf8_inj; auto). subst. auto.
  - match goal with X : forall t, rust_string t -> utf8 t <> _ |- _ => exfalso; eapply X; eauto end.
  - match goal with X : forall t, rust_string t -> utf8 t <> _ |- _ => exfalso; eapply X; eauto end.
Qed.

(** The parser of Parser.v works on a list of characters with line and column; its stream operations are the
    specified ones.  [views s a]: the parser state [s] is at stream [a]. *)
Definition views (s : pstate) (a : astream) : Prop :=
  s_file s = as_file a /\ s_rest s = skipn (as_used a) (as_text a) /\
  pos_at (firstn (as_used a) (as_text a)) (s_line s) (s_col s).
Lemma skipn_nth {A} (l : list A) n : nth_error l n = match skipn n l with [] => None | c :: _ => Some c end.
Proof. revert n; induction l; intros [|n]; cbn; auto. Qed.
Lemma skipn_next {A} (l : list A) n c r : skipn n l = c :: r -> skipn (S n) l = r.
Proof. revert n; induction l; intros [|n] E; cbn in *; try discriminate; [congruence|]. apply IHl; auto. Qed.
Theorem C47_parser_reads_the_stream s ss hs k i a :
  nth_error hs k = Some (Some i) -> nth_error ss i = Some a -> views s a ->
  (exists o, peek s = (Ok o, s) /\ spec (ss, hs) (Peek k) (OChar o) (ss, hs)) /\
  (exists o s' a', next s = (Ok o, s') /\ spec (ss, hs) (Next k) (OChar o) (upd ss i a', hs) /\ views s' a') /\
  (exists l, getline s = (Ok l, s) /\ spec (ss, hs) (Line k) (ONum l) (ss, hs)) /\
  (exists c, getcol s = (Ok c, s) /\ spec (ss, hs) (Col k) (ONum c) (ss, hs)) /\
  (exists f, getfile s = (Ok f, s) /\ spec (ss, hs) (File k) (OFile f) (ss, hs)).
Proof.
  intros Ek Ea (Vf & Vr & Vp). split; [|split; [|split; [|split]]].
  - eexists. split; [reflexivity|]. rewrite Vr, <- skipn_nth. eapply SPeek; eauto.
  - unfold next. pose proof (skipn_nth (as_text a) (as_used a)) as X. rewrite <- Vr in X.
    destruct (s_rest s) as [|c r] eqn:Er.
    + exists None, s, a. split; [reflexivity|]. rewrite (upd_same _ _ _ Ea). split; [eapply SNextEnd; eauto|].
      split; auto. split; auto. congruence.
    + destruct (adv c (s_line s) (s_col s)) as [l' k'] eqn:Ad.
      exists (Some c), (set_stream s r l' k'), (mkas (as_file a) (as_text a) (S (as_used a))).
      split; [reflexivity|]. split; [eapply SNext; eauto|]. unfold views. cbn [s_file s_rest s_line s_col set_stream as_file as_text as_used].
      split; auto. split; [symmetry; eapply skipn_next; eauto|].
      rewrite (firstn_succ _ _ _ X). pose proof (pos_step _ _ _ c Vp) as PS. rewrite Ad in PS. auto.
  - eexists. split; [reflexivity|]. eapply SLine; eauto.
  - eexists. split; [reflexivity|]. eapply SCol; eauto.
  - eexists. split; [reflexivity|]. rewrite Vf. eapply SFile; eauto.
Qed.

(** The hypotheses are met, and the model has undefined behaviour to avoid: had [CharStream::clone] cloned the
    [Inner] (which derives [Clone]), reading the clone after dropping the original would read freed memory. *)
Definition deep_clone (i : nat) : W unit :=
  let! c := get_cell i in
  fun w =>
    let x := ce_inner c in
    match nth_error (w_heap w) (i_contents x) with
    | Some (Some bs) =>
        Done (tt, mkworld (w_heap w ++ [Some bs])
                    (w_cells w ++ [Some (mkcell 1 Unused (mkinner (i_file x) (List.length (w_heap w)) (i_chars x)
                                                              (i_peeked x) (i_line x) (i_col x)))])
                    (w_handles w ++ [Some (List.length (w_cells w))]))
    | _ => UB
    end.
Example C47_ex :
  let t := [233; 10; 8364; 128512] in
  Forall op_typed [FromString t; Peek 0; Clone 0; Next 0; Next 1; Drop 0; Next 1; Peek 1; Line 1; Col 1; Next 1; Next 1;
                   Drop 1; Peek 1; FromFile [97] [195; 40]; FromFile [97] [195; 169]; Next 2] /\
  (exists w, exec_all [FromString t; Peek 0; Clone 0; Next 0; Next 1; Drop 0; Next 1; Peek 1; Line 1; Col 1; Next 1; Next 1;
                   Drop 1; Peek 1; FromFile [97] [195; 40]; FromFile [97] [195; 169]; Next 2] world0 =
    Done ([OUnit; OChar (Some 233); OUnit; OChar (Some 233); OChar (Some 10); OUnit; OChar (Some 8364); OChar (Some 128512);
           ONum 2; ONum 2; OChar (Some 128512); OChar None; OUnit; OVoid; OIo invalid_utf8; OUnit; OChar (Some 233)], w) /\
    nth_error (w_heap w) 0 = Some None) /\
  (let! _ := exec (FromString [97; 98]) in let! _ := deep_clone 0 in let! _ := exec (Drop 0) in exec (Next 1)) world0 = UB.
Proof.
  split; [|split].
  - repeat (apply Forall_cons; [cbn [op_typed]; unfold rust_string; try exact I;
      repeat (apply Forall_cons; [unfold scalar; lia|]); apply Forall_nil|]); apply Forall_nil.
  - eexists. split; [vm_compute; reflexivity|reflexivity].
  - vm_compute. reflexivity.
Qed.
Print Assumptions C47_streams_are_safe_and_exact.
Print Assumptions C47_buffers_live_as_long_as_handles.
Print Assumptions C47_spec_deterministic.
Print Assumptions C47_parser_reads_the_stream.
