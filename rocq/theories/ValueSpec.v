(** * ValueSpec: independent specification of values (well-formedness, identity-free equality,
    lookup along the parent chain) and the theory of Values.v. *)
From Verif Require Export Values TypeSpec.
From Coq Require Import String Permutation.
From Coq Require Import QArith.Qcanon.
Open Scope N_scope.

(** ** Specification *)

(** Lowest terms (the denominator of a [Q] is positive by construction). *)
Definition lowest (q : Q) : Prop := Z.gcd (Qnum q) (Zpos (Qden q)) = 1%Z.

(** The words that cannot be field names (README, "reserved"). *)
Definition reserved_words : list str :=
  [lit "@"; lit "null"; lit "true"; lit "false"; lit "Obj"; lit "Str"; lit "Arr"; lit "Tup"].

(** Legal field names. *)
Definition legal_field `{Unicode} (f : str) : Prop :=
  exists c r, f = c :: r /\
    (ch_is_alphabetic c = true \/ c = c_under) /\
    Forall (fun d => ch_is_alphabetic d = true \/ is_digit d = true \/ d = c_under) r /\
    ~ In f reserved_words.

Section Wf.
(** [F] constrains the list of field names of each Obj. *)
Variable F : list str -> Prop.

(** Well-formed values: Fracs in lowest terms; an Arr's inner type is the least common
    specialisation of its elements' types; a Tup's type vector lists its elements' types. *)
Inductive wf_value : value -> Prop :=
| wf_null : wf_value VNull
| wf_bool b : wf_value (VBool b)
| wf_int z : wf_value (VInt z)
| wf_frac q : lowest q -> wf_value (VFrac q)
| wf_str s : wf_value (VStr s)
| wf_arr id t vs :
    Forall wf_value vs -> least_spec_all (map get_type vs) t -> wf_value (VArr (MkArr id t vs))
| wf_tup id ts vs :
    Forall wf_value vs -> ts = map get_type vs -> wf_value (VTup (MkTup id ts vs))
| wf_vobj o : wf_obj o -> wf_value (VObj o)
with wf_obj : obj -> Prop :=
| wf_mkobj id ps par :
    F (map fst ps) ->
    Forall wf_value (map snd ps) ->
    (forall p, par = Some p -> wf_obj p) ->
    wf_obj (MkObj id ps par).
End Wf.

(** No constraint on names; and the names the parser accepts. *)
Definition any_names (l : list str) : Prop := True.
Definition good_names `{Unicode} (l : list str) : Prop := NoDup l /\ Forall legal_field l.

(** Forget ids: two values are the same data iff they are equal after [erase]. *)
Fixpoint erase (v : value) : value :=
  match v with
  | VArr (MkArr _ t vs) => VArr (MkArr 0 t (map erase vs))
  | VTup (MkTup _ ts vs) => VTup (MkTup 0 ts (map erase vs))
  | VObj o => VObj (erase_obj o)
  | _ => v
  end
with erase_obj (o : obj) : obj :=
  match o with
  | MkObj _ ps par =>
      MkObj 0 (map (fun p => match p with (f, v) => (f, erase v) end) ps)
            (match par with Some p => Some (erase_obj p) | None => None end)
  end.

(** [part v w]: the value [v] is [w] or occurs somewhere inside it (elements, fields, parents). *)
Inductive part (v : value) : value -> Prop :=
| part_self : part v v
| part_arr id t vs w : In w vs -> part v w -> part v (VArr (MkArr id t vs))
| part_tup id ts vs w : In w vs -> part v w -> part v (VTup (MkTup id ts vs))
| part_field id ps par f w : In (f, w) ps -> part v w -> part v (VObj (MkObj id ps par))
| part_parent id ps p : part v (VObj p) -> part v (VObj (MkObj id ps (Some p))).

(** The chain of an Obj: itself, its parent, its grandparent, ... *)
Fixpoint chain (o : obj) : list obj :=
  match o with
  | MkObj _ _ par => o :: match par with Some p => chain p | None => [] end
  end.

(** The pair stored under a name in one Obj, ignoring its parents: the first one. *)
Definition stored (o : obj) (f : str) (v : value) : Prop :=
  exists l r, obj_pairs o = l ++ (f, v) :: r /\ ~ In f (map fst l).
Definition has_field (o : obj) (f : str) : Prop := In f (map fst (obj_pairs o)).

(** ** Induction on values *)
Section value_ind2.
  Variable P : value -> Prop.
  Variable Q : obj -> Prop.
  Hypothesis Hnull : P VNull.
  Hypothesis Hbool : forall b, P (VBool b).
  Hypothesis Hint : forall z, P (VInt z).
  Hypothesis Hfrac : forall q, P (VFrac q).
  Hypothesis Hstr : forall s, P (VStr s).
  Hypothesis Harr : forall id t vs, Forall P vs -> P (VArr (MkArr id t vs)).
  Hypothesis Htup : forall id ts vs, Forall P vs -> P (VTup (MkTup id ts vs)).
  Hypothesis Hobj : forall o, Q o -> P (VObj o).
  Hypothesis Hmk : forall id ps par,
    Forall P (map snd ps) -> (forall p, par = Some p -> Q p) -> Q (MkObj id ps par).
  Fixpoint value_ind2 (v : value) : P v :=
    match v with
    | VNull => Hnull | VBool b => Hbool b | VInt z => Hint z | VFrac q => Hfrac q
    | VStr s => Hstr s
    | VArr (MkArr id t vs) =>
        Harr id t vs ((fix go (l : list value) : Forall P l :=
                         match l with
                         | [] => Forall_nil _
                         | x :: l' => Forall_cons _ (value_ind2 x) (go l')
                         end) vs)
    | VTup (MkTup id ts vs) =>
        Htup id ts vs ((fix go (l : list value) : Forall P l :=
                          match l with
                          | [] => Forall_nil _
                          | x :: l' => Forall_cons _ (value_ind2 x) (go l')
                          end) vs)
    | VObj o => Hobj o (obj_ind2 o)
    end
  with obj_ind2 (o : obj) : Q o :=
    match o with
    | MkObj id ps par =>
        Hmk id ps par
            ((fix go (l : list (str * value)) : Forall P (map snd l) :=
                match l with
                | [] => Forall_nil _
                | (f, x) :: l' => Forall_cons _ (value_ind2 x) (go l')
                end) ps)
            (match par as par return forall p, par = Some p -> Q p with
             | Some q => fun p E => eq_ind q Q (obj_ind2 q) p (f_equal (fun o => match o with Some x => x | None => q end) E)
             | None => fun p E => match E with eq_refl => I end
             end)
    end.
  Lemma value_obj_ind2 : (forall v, P v) /\ (forall o, Q o).
  Proof. split; [exact value_ind2 | exact obj_ind2]. Qed.
End value_ind2.

(** ** Strings *)
Lemma list_eqb_iff {A} (eqb : A -> A -> bool) l m :
  (forall x y, In x l -> eqb x y = true <-> x = y) -> list_eqb eqb l m = true <-> l = m.
Proof.
  revert m; induction l as [|x l IH]; intros [|y m] H; cbn; split; intro E; try discriminate; auto.
  - apply andb_true_iff in E as [E1 E2]. f_equal; [apply H; cbn; auto|].
    apply IH; auto. intros; apply H; cbn; auto.
  - inversion E; subst. apply andb_true_iff; split; [apply H; cbn; auto|].
    apply IH; auto. intros; apply H; cbn; auto.
Qed.

Lemma str_eqb_iff a b : str_eqb a b = true <-> a = b.
Proof. apply list_eqb_iff. intros; apply N.eqb_eq. Qed.
Lemma str_eqb_refl a : str_eqb a a = true.
Proof. apply str_eqb_iff; auto. Qed.
Lemma str_eqb_sym a b : str_eqb a b = str_eqb b a.
Proof. apply eq_true_iff_eq. rewrite !str_eqb_iff. split; auto. Qed.
Lemma str_eqb_spec a b : reflect (a = b) (str_eqb a b).
Proof. apply iff_reflect. symmetry. apply str_eqb_iff. Qed.
Lemma str_eqb_neq a b : str_eqb a b = false <-> a <> b.
Proof. destruct (str_eqb_spec a b); split; congruence. Qed.

Lemma is_reserved_iff f : is_reserved f = true <-> In f reserved_words.
Proof.
  unfold is_reserved, reserved_words. rewrite !orb_true_iff, !str_eqb_iff. cbn [In].
  intuition congruence.
Qed.

Lemma assoc_some {V} (l : list (str * V)) f v :
  assoc f l = Some v <-> exists a b, l = a ++ (f, v) :: b /\ ~ In f (map fst a).
Proof.
  induction l as [|[k w] l IH]; cbn.
  - split; [discriminate|]. intros (a & b & E & _). destruct a; discriminate.
  - destruct (str_eqb_spec k f).
    + subst. split.
      * intros E; inversion E; subst. exists [], l; auto.
      * intros ([|[k' w'] a] & b & E & Hn); inversion E; subst; auto.
        exfalso; apply Hn; cbn; auto.
    + rewrite IH. split; intros (a & b & E & Hn).
      * exists ((k, w) :: a), b. subst. split; auto. cbn. intuition congruence.
      * destruct a as [|[k' w'] a]; inversion E; subst; [congruence|].
        exists a, b; split; auto. cbn in Hn. intuition.
Qed.

Lemma assoc_none {V} (l : list (str * V)) f : assoc f l = None <-> ~ In f (map fst l).
Proof.
  induction l as [|[k w] l IH]; cbn; [intuition|].
  destruct (str_eqb_spec k f); [subst; intuition discriminate|]. rewrite IH. intuition.
Qed.

Lemma mem_str_iff f l : mem_str f l = true <-> In f l.
Proof.
  unfold mem_str. rewrite existsb_exists. split.
  - intros (x & Hi & E). apply str_eqb_iff in E. subst; auto.
  - intros Hi. exists f. rewrite str_eqb_refl. auto.
Qed.

(** ** Arr::from_values *)

Lemma least_spec_all_nil : least_spec_all [] TAny.
Proof. split; [constructor|]. intros; constructor. Qed.

Lemma least_spec_all_snoc ts t a u :
  least_spec_all ts t -> least_spec t a u -> least_spec_all (ts ++ [a]) u.
Proof.
  intros [H1 H2] [[H3 H4] H5]. split.
  - apply Forall_app; split; auto. eapply Forall_impl; [|exact H1].
    cbn; intros; eauto using le_ty_trans.
  - intros v Hv. apply Forall_app in Hv as [A B]. inversion B; subst. apply H5; split; auto.
Qed.

Lemma least_spec_all_app l1 l2 t1 t2 t :
  least_spec_all l1 t1 -> least_spec_all l2 t2 -> least_spec t1 t2 t ->
  least_spec_all (l1 ++ l2) t.
Proof.
  intros [A1 A2] [B1 B2] [[C1 C2] C3]. split.
  - apply Forall_app; split; (eapply Forall_impl; [|eassumption]); cbn; intros;
      eauto using le_ty_trans.
  - intros u Hu. apply Forall_app in Hu as [? ?]. apply C3; split; auto.
Qed.

Lemma arr_check_step_spec ts tcur any tnew :
  least_spec_all ts tcur -> any = has_any tcur ->
  match arr_check_step tcur any tnew with
  | inl (t, any') => least_spec_all (ts ++ [tnew]) t /\ any' = has_any t
  | inr (t1, t2) => (forall u, ~ common_spec_all (ts ++ [tnew]) u) /\ t1 = tcur /\ t2 = tnew
  end.
Proof.
  intros HL Ha. unfold arr_check_step. destruct any.
  - pose proof (most_specific_spec tcur tnew) as H.
    destruct (most_specific tcur tnew) as [[t any']|].
    + destruct H as [H ->]. split; auto. eapply least_spec_all_snoc; eauto.
    + split; auto. intros u Hu. apply Forall_app in Hu as [Hu Hu']. inversion Hu'; subst.
      apply H. exists u. split; auto. apply HL; auto.
  - destruct (ty_eqb tcur tnew) eqn:E; cbn.
    + split; auto. apply ty_eqb_iff in E as (u & E1 & E2).
      assert (u = tcur) by (apply no_any_maximal; auto). subst.
      eapply least_spec_all_snoc; eauto. split; [split; auto|]. intros v [? ?]; auto.
    + split; auto. intros u Hu. apply Forall_app in Hu as [Hu Hu']. inversion Hu'; subst.
      assert (ty_eqb tcur tnew = true); [|congruence].
      apply ty_eqb_iff. exists u; split; auto. apply HL; auto.
Qed.

Lemma arr_check_spec vs : forall ts tcur any,
  least_spec_all ts tcur -> any = has_any tcur ->
  match arr_check vs tcur any with
  | inl t => least_spec_all (ts ++ map get_type vs) t
  | inr _ => forall u, ~ common_spec_all (ts ++ map get_type vs) u
  end.
Proof.
  induction vs as [|v vs IH]; intros ts tcur any HL Ha; cbn.
  - rewrite app_nil_r. auto.
  - pose proof (arr_check_step_spec ts tcur any (get_type v) HL Ha) as H.
    destruct (arr_check_step tcur any (get_type v)) as [[t any']|[t1 t2]].
    + destruct H as [H ->]. specialize (IH _ _ _ H eq_refl).
      replace (ts ++ get_type v :: map get_type vs) with ((ts ++ [get_type v]) ++ map get_type vs)
        by (rewrite <- app_assoc; auto). exact IH.
    + destruct H as [H _]. intros u Hu.
      replace (ts ++ get_type v :: map get_type vs) with ((ts ++ [get_type v]) ++ map get_type vs)
        in Hu by (rewrite <- app_assoc; auto).
      apply Forall_app in Hu as [Hu _]. eapply H; eauto.
Qed.

Lemma arr_from_values_spec id vs :
  match arr_from_values id vs with
  | OOk a => arr_id a = id /\ arr_values a = vs /\
             least_spec_all (map get_type vs) (arr_inner_type a)
  | OErr e => (exists t1 t2, e = OE_ArrTypeMismatch t1 t2) /\
              forall u, ~ common_spec_all (map get_type vs) u
  end.
Proof.
  unfold arr_from_values.
  pose proof (arr_check_spec vs [] TAny true least_spec_all_nil eq_refl) as H.
  destruct (arr_check vs TAny true) as [t|[t1 t2]]; cbn in *; eauto.
Qed.

Lemma common_spec_all_perm l l' u :
  Permutation l l' -> common_spec_all l u -> common_spec_all l' u.
Proof. intros. unfold common_spec_all. eapply Permutation_Forall; eauto. Qed.

Lemma least_spec_all_perm l l' u :
  Permutation l l' -> least_spec_all l u -> least_spec_all l' u.
Proof.
  intros P [H1 H2]. split; [eapply common_spec_all_perm; eauto|].
  intros v Hv. apply H2. eapply common_spec_all_perm; [apply Permutation_sym; eauto|auto].
Qed.

(** ** Equality *)

Lemma get_type_erase v : get_type (erase v) = get_type v.
Proof. destruct v; auto; [destruct a|destruct t]; auto. Qed.

Lemma map_ext_Forall {A B} (f g : A -> B) l :
  Forall (fun x => f x = g x) l -> map f l = map g l.
Proof. induction 1; cbn; congruence. Qed.

Lemma lowest_Qred q : lowest q <-> Qred q = q.
Proof. unfold lowest. split; [apply Qred_identity | apply Qred_identity2]. Qed.

Lemma lowest_eq a b : lowest a -> lowest b -> Qeq_bool a b = true -> a = b.
Proof.
  intros A B E. apply Qeq_bool_iff in E. apply Qred_complete in E.
  apply lowest_Qred in A, B. congruence.
Qed.

Definition pair_eqb (x y : str * value) : bool :=
  match x, y with (f, v), (g, w) => str_eqb f g && value_eqb v w end.

Lemma obj_eqb_unfold id1 p1 par1 id2 p2 par2 :
  obj_eqb (MkObj id1 p1 par1) (MkObj id2 p2 par2) =
  match par1, par2 with
  | Some q1, Some q2 => if negb (obj_eqb q1 q2) then false else list_eqb pair_eqb p1 p2
  | None, None => list_eqb pair_eqb p1 p2
  | _, _ => false
  end.
Proof. reflexivity. Qed.

(** Without any hypothesis: equal data compare equal. *)
Lemma value_eqb_complete :
  (forall v w, erase v = erase w -> value_eqb v w = true) /\
  (forall o p, erase_obj o = erase_obj p -> obj_eqb o p = true).
Proof.
  assert (LE : forall vs, Forall (fun v => forall w, erase v = erase w -> value_eqb v w = true) vs ->
    forall ws, map erase vs = map erase ws -> list_eqb value_eqb vs ws = true).
  { induction 1; intros [|w ws] E; cbn in *; try discriminate; auto.
    inversion E. rewrite H by auto. cbn. apply IHForall; auto. }
  apply value_obj_ind2.
  - intros w E. destruct w as [| | | | |[? ? ?]|[? ? ?]|]; inversion E; auto.
  - intros b w E. destruct w as [| | | | |[? ? ?]|[? ? ?]|]; inversion E. cbn. apply eqb_reflx.
  - intros z w E. destruct w as [| | | | |[? ? ?]|[? ? ?]|]; inversion E. cbn. apply Z.eqb_refl.
  - intros q w E. destruct w as [| | | | |[? ? ?]|[? ? ?]|]; inversion E. cbn.
    apply Qeq_bool_iff. reflexivity.
  - intros s w E. destruct w as [| | | | |[? ? ?]|[? ? ?]|]; inversion E. cbn. apply str_eqb_refl.
  - intros id t vs IH w E. destruct w as [| | | | |[id' t' vs']|[? ? ?]|]; inversion E; subst.
    cbn. rewrite ty_eqb_refl. cbn. apply LE; auto.
  - intros id ts vs IH w E. destruct w as [| | | | |[id' t' vs']|[? ts' vs']|]; inversion E; subst.
    cbn. replace (list_eqb ty_eqb ts' ts') with true.
    + cbn. apply LE; auto.
    + clear. symmetry. induction ts'; cbn; auto. rewrite ty_eqb_refl; auto.
  - intros o IH w E. destruct w as [| | | | |[id' t' vs']|[? ts' vs']|]; inversion E; subst.
    cbn [value_eqb]. apply IH; auto.
  - intros id ps par IH IHp [id' ps' par'] E. rewrite obj_eqb_unfold. cbn in E.
    inversion E as [[E1 E2]].
    assert (L : list_eqb pair_eqb ps ps' = true).
    { clear - IH E1. revert ps' E1. induction ps as [|[f v] ps IHps]; intros [|[g w] ps'] E1;
        cbn in *; try discriminate; auto.
      inversion E1. inversion IH; subst. rewrite str_eqb_refl. cbn.
      rewrite H4; auto. cbn. apply IHps; auto. }
    destruct par as [q|], par' as [q'|]; inversion E2; auto.
    rewrite (IHp q eq_refl q'); auto.
Qed.

(** On well-formed values the converse holds too. *)
Lemma value_eqb_sound :
  (forall v, wf_value any_names v -> forall w, wf_value any_names w ->
     value_eqb v w = true -> erase v = erase w) /\
  (forall o, wf_obj any_names o -> forall p, wf_obj any_names p ->
     obj_eqb o p = true -> erase_obj o = erase_obj p).
Proof.
  assert (LE : forall vs, Forall (fun v => wf_value any_names v -> forall w, wf_value any_names w ->
      value_eqb v w = true -> erase v = erase w) vs -> Forall (wf_value any_names) vs ->
    forall ws, Forall (wf_value any_names) ws -> list_eqb value_eqb vs ws = true ->
      map erase vs = map erase ws).
  { induction 1; intros W [|w ws] W' E; cbn in *; try discriminate; auto.
    apply andb_true_iff in E as [E1 E2]. inversion W; inversion W'; subst. f_equal; auto. }
  apply value_obj_ind2.
  - intros _ [] _ E; cbn in E; auto; discriminate.
  - intros b _ [] _ E; cbn in E; try discriminate. apply eqb_prop in E. subst; auto.
  - intros z _ [] _ E; cbn in E; try discriminate. apply Z.eqb_eq in E. subst; auto.
  - intros q W [] W' E; cbn in E; try discriminate. inversion W; inversion W'; subst.
    cbn [erase]. f_equal. apply lowest_eq; auto.
  - intros s _ [] _ E; cbn in E; try discriminate. apply str_eqb_iff in E. subst; auto.
  - intros id t vs IH W w W' E. destruct w as [| | | | |[id' t' vs']|[? ? ?]|]; try discriminate.
    cbn in E. destruct (ty_eqb t t') eqn:Et; [|discriminate]. cbn in E.
    inversion W; inversion W'; subst.
    assert (EM : map erase vs = map erase vs') by (apply LE; auto).
    cbn. rewrite EM. do 2 f_equal. eapply least_spec_all_unique; [eassumption|].
    replace (map get_type vs) with (map get_type vs'); auto.
    rewrite <- !(map_ext _ _ get_type_erase), <- !(map_map erase get_type). congruence.
  - intros id ts vs IH W w W' E. destruct w as [| | | | |[id' t' vs']|[? ts' vs']|]; try discriminate.
    cbn in E. destruct (list_eqb ty_eqb ts ts') eqn:Et; [|discriminate]. cbn in E.
    inversion W; inversion W'; subst.
    assert (EM : map erase vs = map erase vs') by (apply LE; auto).
    cbn. rewrite EM. do 2 f_equal.
    rewrite <- !(map_ext _ _ get_type_erase), <- !(map_map erase get_type). congruence.
  - intros o IH W w W' E. destruct w as [| | | | |[id' t' vs']|[? ts' vs']|]; try discriminate.
    cbn in *. inversion W; inversion W'; subst. f_equal; auto.
  - intros id ps par IH IHp W [id' ps' par'] W' E. rewrite obj_eqb_unfold in E.
    inversion W as [? ? ? _ Wv Wp]; inversion W' as [? ? ? _ Wv' Wp']; subst.
    assert (L : list_eqb pair_eqb ps ps' = true ->
      map (fun p => match p with (f, v) => (f, erase v) end) ps =
      map (fun p => match p with (f, v) => (f, erase v) end) ps').
    { clear - IH Wv Wv'. revert ps' Wv'. induction ps as [|[f v] ps IHps]; intros [|[g w] ps'] Wv' E;
        cbn in *; try discriminate; auto.
      inversion IH; inversion Wv; inversion Wv'; subst.
      apply andb_true_iff in E as [E1 E2]. apply andb_true_iff in E1 as [E0 E1].
      apply str_eqb_iff in E0. subst. f_equal; auto. f_equal; auto. }
    cbn. destruct par as [q|], par' as [q'|]; try discriminate.
    + destruct (obj_eqb q q') eqn:Eq; [|discriminate]. cbn in E.
      rewrite (L E). do 2 f_equal. apply (IHp q eq_refl); auto.
    + rewrite (L E). auto.
Qed.

Lemma value_eqb_iff v w :
  wf_value any_names v -> wf_value any_names w ->
  (value_eqb v w = true <-> erase v = erase w).
Proof. intros; split; [apply value_eqb_sound; auto | apply value_eqb_complete]. Qed.

Lemma obj_eqb_iff o p :
  wf_obj any_names o -> wf_obj any_names p ->
  (obj_eqb o p = true <-> erase_obj o = erase_obj p).
Proof. intros; split; [apply value_eqb_sound; auto | apply value_eqb_complete]. Qed.

Lemma wf_weaken (F G : list str -> Prop) : (forall l, F l -> G l) ->
  (forall v, wf_value F v -> wf_value G v) /\ (forall o, wf_obj F o -> wf_obj G o).
Proof.
  intros FG. apply value_obj_ind2; intros; try constructor; auto.
  - inversion H; auto.
  - inversion H0; subst. rewrite Forall_forall in *. auto.
  - inversion H0; auto.
  - inversion H0; subst. rewrite Forall_forall in *. auto.
  - inversion H0; subst. auto.
  - inversion H0; subst. auto.
  - inversion H1; subst. auto.
  - inversion H1; subst. rewrite Forall_forall in *. auto.
  - inversion H1; subst. intros. apply H0; auto.
Qed.

(** Well-formedness does not depend on ids. *)
Lemma wf_erase F :
  (forall v, wf_value F v -> forall w, erase w = erase v -> wf_value F w) /\
  (forall o, wf_obj F o -> forall p, erase_obj p = erase_obj o -> wf_obj F p).
Proof.
  assert (LE : forall vs, Forall (fun v => wf_value F v -> forall w, erase w = erase v ->
       wf_value F w) vs -> Forall (wf_value F) vs -> forall ws, map erase ws = map erase vs ->
       Forall (wf_value F) ws).
  { induction 1; intros W [|w ws] E; cbn in *; try discriminate; auto.
    inversion E. inversion W; subst. constructor; auto. }
  assert (LT : forall vs ws, map erase ws = map erase vs -> map get_type ws = map get_type vs).
  { intros vs ws E. rewrite <- !(map_ext _ _ get_type_erase), <- !(map_map erase get_type).
    congruence. }
  apply value_obj_ind2.
  - intros _ w E. destruct w as [| | | | |[? ? ?]|[? ? ?]|]; inversion E; constructor.
  - intros b _ w E. destruct w as [| | | | |[? ? ?]|[? ? ?]|]; inversion E; constructor.
  - intros b _ w E. destruct w as [| | | | |[? ? ?]|[? ? ?]|]; inversion E; constructor.
  - intros b W w E. destruct w as [| | | | |[? ? ?]|[? ? ?]|]; inversion E; subst; auto.
  - intros b _ w E. destruct w as [| | | | |[? ? ?]|[? ? ?]|]; inversion E; constructor.
  - intros id t vs IH W w E. destruct w as [| | | | |[? ? ?]|[? ? ?]|]; inversion E; subst.
    inversion W; subst. constructor; eauto. erewrite LT; eauto.
  - intros id t vs IH W w E. destruct w as [| | | | |[? ? ?]|[? ? ?]|]; inversion E; subst.
    inversion W; subst. constructor; eauto.
  - intros o IH W w E. destruct w as [| | | | |[? ? ?]|[? ? ?]|]; inversion E; subst.
    inversion W; subst. constructor; eauto.
  - intros id ps par IH IHp W [id' ps' par'] E. cbn in E. inversion E as [[E1 E2]].
    inversion W; subst. constructor.
    + replace (map fst ps') with (map fst ps); auto.
      clear - E1. revert ps' E1. induction ps as [|[? ?] ps IH]; intros [|[? ?] ps'] E; cbn in *;
        try discriminate; inversion E; auto. f_equal; auto.
    + clear - E1 IH H3. revert ps' E1. induction ps as [|[? ?] ps IHps]; intros [|[? ?] ps'] E; cbn in *;
        try discriminate; auto. inversion E. inversion IH; inversion H3; subst. constructor; auto.
    + intros p ->. destruct par as [q|]; inversion E2. eapply IHp; eauto.
Qed.

(** ** Field lookup *)

Lemma stored_iff o f v : assoc f (obj_pairs o) = Some v <-> stored o f v.
Proof. apply assoc_some. Qed.
Lemma has_field_iff o f : obj_contains o f = true <-> has_field o f.
Proof.
  unfold obj_contains, has_field. rewrite existsb_exists, in_map_iff. split.
  - intros ([g v] & Hi & E). apply str_eqb_iff in E. cbn in *. subst. exists (g, v); auto.
  - intros ([g v] & E & Hi). cbn in E. subst. exists (f, v). rewrite str_eqb_refl; auto.
Qed.

Lemma stored_has_field o f v : stored o f v -> has_field o f.
Proof.
  intros (l & r & E & _). unfold has_field. rewrite E, map_app. apply in_app_iff. cbn; auto.
Qed.
Lemma stored_fun o f v w : stored o f v -> stored o f w -> v = w.
Proof. rewrite <- !stored_iff. congruence. Qed.

Lemma obj_get_with_source_spec o f :
  match obj_get_with_source o f with
  | Some (v, s) => obj_get o f = Some v /\
      exists before after, chain o = before ++ s :: after /\
        Forall (fun p => ~ has_field p f) before /\ stored s f v
  | None => obj_get o f = None /\ Forall (fun p => ~ has_field p f) (chain o)
  end.
Proof.
  revert o. apply (obj_ind2 (fun _ => True) _); auto.
  intros id ps par _ IH. cbn. destruct (assoc f ps) as [v|] eqn:E.
  - split; auto. exists [], (match par with Some p => chain p | None => [] end).
    repeat split; auto. apply assoc_some; auto.
  - assert (N : ~ has_field (MkObj id ps par) f) by (apply assoc_none; auto).
    destruct par as [p|].
    + specialize (IH p eq_refl). destruct (obj_get_with_source p f) as [[v s]|].
      * destruct IH as [G (b & a & E1 & E2 & E3)]. split; auto.
        exists (MkObj id ps (Some p) :: b), a. cbn. rewrite E1. repeat split; auto.
      * destruct IH as [G A]. split; auto.
    + split; auto.
Qed.

(** ** Indexing *)
Lemma arr_get_spec a i :
  arr_get a i = match nth_error (arr_values a) (N.to_nat i) with
                | Some v => OOk v
                | None => OErr (OE_ArrOutOfBounds i)
                end.
Proof.
  unfold arr_get, arr_len. destruct (N.leb_spec (N.of_nat (List.length (arr_values a))) i); auto.
  assert (E : nth_error (arr_values a) (N.to_nat i) = None) by (apply nth_error_None; lia).
  rewrite E; auto.
Qed.
Lemma tup_get_spec t i :
  tup_get t i = match nth_error (tup_values t) (N.to_nat i) with
                | Some v => OOk v
                | None => OErr (OE_TupOutOfBounds i)
                end.
Proof.
  unfold tup_get, tup_len. destruct (N.leb_spec (N.of_nat (List.length (tup_values t))) i); auto.
  assert (E : nth_error (tup_values t) (N.to_nat i) = None) by (apply nth_error_None; lia).
  rewrite E; auto.
Qed.
