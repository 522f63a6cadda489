(** * PropApi: C44 - C46, the API around native values, iteration and macros. *)
From Verif Require Import Values Api TypeSpec ValueSpec FormatProofs PropData.
From Coq Require Import String Lia QArith Qfield.
Open Scope N_scope.

(** ** C44: values and native Rust values *)

(** [v == n] and [n == v] always agree, and for a native that can exist both say the same as
    [v == Value::from(n)]. *)
Theorem C44_native_eq_is_value_eq v n :
  native_ok n ->
  eq_to_value n v = value_eq_to v n /\ value_eq_to v n = value_eqb v (value_from n).
Proof.
  intros OK. split.
  - destruct n, v; reflexivity.
  - destruct n, v; try reflexivity.
    cbn [value_eq_to value_from value_eqb native_ok] in *. unfold to_int.
    destruct (Z.leb_spec (int_lo k) z0), (Z.leb_spec z0 (int_hi k)); cbn [andb]; auto;
      symmetry; apply Z.eqb_neq; lia.
Qed.

(** For values built by checked constructors: they are equal to a native exactly if they hold the same data
    as the value the native converts to. *)
Theorem C44_native_eq_same_data v n :
  native_ok n -> wf_value any_names v -> wf_value any_names (value_from n) ->
  (value_eq_to v n = true <-> erase v = erase (value_from n)).
Proof.
  intros OK W1 W2. destruct (C44_native_eq_is_value_eq v n OK) as [_ ->].
  apply C12_eq_is_same_data; auto.
Qed.

(** What converts to a value can be got back: with the getter of its class, and only with that one (except
    that an Int can be read as a Frac). *)
Definition got (n : native) : Prop :=
  let v := value_from n in
  match n with
  | NBool b => get_bool v = OOk b
  | NInt _ z | NBigInt z => get_int v = OOk z /\ exists q, get_frac v = OOk q /\ (q == inject_Z z)%Q
  | NBigRational q => get_frac v = OOk q
  | NString s | NStr s => get_str v = OOk s
  | NArr a => get_arr v = OOk a
  | NTup t => get_tup v = OOk t
  | NObj o => get_obj v = OOk o
  end.
Theorem C44_conversion_keeps_the_data n : got n /\ value_from n <> VNull.
Proof.
  assert (forall z, exists q, OOk (Qred (Qmake z 1)) = OOk q /\ (q == inject_Z z)%Q) as X.
  { intros z. exists (Qred (Qmake z 1)). split; auto. apply Qred_correct. }
  destruct n; (split; [|discriminate]); cbn [got value_from get_bool get_int get_str get_frac get_arr get_tup get_obj];
    auto.
Qed.

(** Integers of all native types are compared by their number, whatever their widths and signs. *)
Theorem C44_integers_across_widths k z k' z' :
  native_ok (NInt k z) -> native_ok (NInt k' z') ->
  (value_eq_to (value_from (NInt k z)) (NInt k' z') = true <-> z = z').
Proof.
  intros _ OK'. destruct (C44_native_eq_is_value_eq (value_from (NInt k z)) _ OK') as [_ ->].
  apply Z.eqb_eq.
Qed.

(** Which Ints have an equal native of a given type: exactly the numbers of that many bits, unsigned or in
    two's complement; and what has no equal native is different from all of them. *)
Definition width (k : int_kind) : Z :=
  match k with U8 | I8 => 8 | U16 | I16 => 16 | U32 | I32 => 32 | U64 | I64 | Usize => 64 end%Z.
Definition fits (k : int_kind) (z : Z) : Prop :=
  match k with
  | I8 | I16 | I32 | I64 => (- 2 ^ width k <= 2 * z < 2 ^ width k)%Z
  | _ => (0 <= z < 2 ^ width k)%Z
  end.
Theorem C44_native_ranges k z :
  (native_ok (NInt k z) <-> fits k z) /\
  (fits k z <-> exists z', value_eq_to (VInt z) (NInt k z') = true).
Proof.
  assert (native_ok (NInt k z) <-> fits k z) as R
    by (destruct k; cbn -[Z.le Z.lt Z.mul]; lia).
  split; auto. rewrite <- R. cbn [native_ok value_eq_to]. unfold to_int. split.
  - intros [L H]. exists z. apply Z.leb_le in L. apply Z.leb_le in H. rewrite L, H. apply Z.eqb_refl.
  - intros (z' & E). destruct (Z.leb_spec (int_lo k) z), (Z.leb_spec z (int_hi k)); cbn in E; try discriminate; auto.
Qed.

(** No value is equal to natives of two different classes; in particular the Int 1 is not the Frac 1/1. *)
Definition native_class (n : native) : N :=
  match n with
  | NBool _ => 0 | NInt _ _ | NBigInt _ => 1 | NBigRational _ => 2 | NString _ | NStr _ => 3
  | NArr _ => 4 | NTup _ => 5 | NObj _ => 6
  end.
Theorem C44_one_class v n n' :
  value_eq_to v n = true -> value_eq_to v n' = true -> native_class n = native_class n'.
Proof. destruct n, n', v; cbn; intros; auto; discriminate. Qed.

Example C44_ex :
  native_ok (NInt I8 (-1)) /\ value_eq_to (VInt (-1)) (NInt I8 (-1)) = true /\
  value_eq_to (VInt 255) (NInt I8 (-1)) = false /\ value_eq_to (VInt 255) (NInt U8 255) = true /\
  value_eq_to (VInt 1) (NBigRational 1) = false /\ eq_to_value (NStr (lit "a")) (VStr (lit "a")) = true.
Proof. cbn. repeat split; lia. Qed.
Print Assumptions C44_native_eq_is_value_eq.
Print Assumptions C44_native_eq_same_data.
Print Assumptions C44_conversion_keeps_the_data.
Print Assumptions C44_integers_across_widths.
Print Assumptions C44_native_ranges.
Print Assumptions C44_one_class.

(** ** C45: all views of a container agree *)

(** [with_each] with any closure does what calling the closure on each element in order does. *)
Lemma for_each_fold {A S} (f : S -> A -> S) l s : for_each f l s = fold_left f l s.
Proof. revert s; induction l; cbn; auto. Qed.

(** The trace of [with_each]: a closure that records its arguments. *)
Definition arr_visits (a : arr) : list value := arr_with_each (fun s v => s ++ [v]) a [].
Definition tup_visits (t : tup) : list value := tup_with_each (fun s v => s ++ [v]) t [].
Definition obj_visits (o : obj) : list (str * value) := obj_with_each (fun s f v => s ++ [(f, v)]) o [].
Lemma for_each_trace {A B} (g : A -> B) l s : for_each (fun s x => s ++ [g x]) l s = s ++ map g l.
Proof.
  revert s; induction l; cbn; intros; [rewrite app_nil_r; auto|]. rewrite IHl, <- app_assoc. auto.
Qed.
Lemma arr_visits_eq a : arr_visits a = arr_values a.
Proof. unfold arr_visits, arr_with_each. rewrite (for_each_trace (fun x => x)). cbn. apply map_id. Qed.
Lemma tup_visits_eq a : tup_visits a = tup_values a.
Proof. unfold tup_visits, tup_with_each. rewrite (for_each_trace (fun x => x)). cbn. apply map_id. Qed.
Lemma obj_visits_eq o : obj_visits o = obj_pairs o.
Proof.
  unfold obj_visits, obj_with_each. rewrite (for_each_trace (fun p => (fst p, snd p))). cbn.
  rewrite <- (map_id (obj_pairs o)) at 2. apply map_ext. intros []; auto.
Qed.

(** A closure sees the elements one after the other: its final state is determined by the visits. *)
Theorem C45_with_each_is_fold {S} :
  (forall (f : S -> value -> S) a s, arr_with_each f a s = fold_left f (arr_visits a) s) /\
  (forall (f : S -> value -> S) t s, tup_with_each f t s = fold_left f (tup_visits t) s) /\
  (forall (f : S -> str -> value -> S) o s,
     obj_with_each f o s = fold_left (fun s p => f s (fst p) (snd p)) (obj_visits o) s).
Proof.
  split; [|split]; intros.
  - rewrite arr_visits_eq. apply for_each_fold.
  - rewrite tup_visits_eq. apply for_each_fold.
  - rewrite obj_visits_eq. apply for_each_fold.
Qed.

Lemma get_nth (vs : list value) i :
  match nth_error vs (N.to_nat i) with
  | Some v => (N.of_nat (List.length vs) <=? i) = false
  | None => (N.of_nat (List.length vs) <=? i) = true
  end.
Proof.
  destruct (nth_error vs (N.to_nat i)) eqn:E.
  - assert (nth_error vs (N.to_nat i) <> None) as X by congruence. apply nth_error_Some in X.
    apply N.leb_gt. lia.
  - apply nth_error_None in E. apply N.leb_le. lia.
Qed.

(** Arr and Tup: the i-th visited element is what [get(i)] returns; all indices from [len] on are out of
    bounds; [is_empty] is [len() == 0]. *)
Theorem C45_arr_views a :
  (forall i, arr_get a i = match nth_error (arr_visits a) (N.to_nat i) with
                           | Some v => OOk v
                           | None => OErr (OE_ArrOutOfBounds i)
                           end) /\
  arr_len a = N.of_nat (List.length (arr_visits a)) /\
  (arr_is_empty a = true <-> arr_len a = 0) /\
  arr_iter a = arr_visits a.
Proof.
  rewrite arr_visits_eq. split; [|split; [|split]]; auto.
  - intros i. unfold arr_get, arr_len. pose proof (get_nth (arr_values a) i) as X.
    destruct (nth_error _ _); rewrite X; auto.
  - unfold arr_is_empty, arr_len. destruct (arr_values a); cbn; [intuition|split; [discriminate|lia]].
Qed.
Theorem C45_tup_views t :
  (forall i, tup_get t i = match nth_error (tup_visits t) (N.to_nat i) with
                           | Some v => OOk v
                           | None => OErr (OE_TupOutOfBounds i)
                           end) /\
  tup_len t = N.of_nat (List.length (tup_visits t)) /\
  (tup_is_empty t = true <-> tup_len t = 0) /\
  tup_iter t = tup_visits t.
Proof.
  rewrite tup_visits_eq. split; [|split; [|split]]; auto.
  - intros i. unfold tup_get, tup_len. pose proof (get_nth (tup_values t) i) as X.
    destruct (nth_error _ _); rewrite X; auto.
  - unfold tup_is_empty, tup_len. destruct (tup_values t); cbn; [intuition|split; [discriminate|lia]].
Qed.

(** Obj: only the object's own fields are visited, counted and [contain]ed; [get] and [get_with_source]
    prefer the first visited field of the name and only otherwise look at the parent. *)
Theorem C45_obj_views o :
  (forall f, obj_contains o f = true <-> exists v, In (f, v) (obj_visits o)) /\
  (forall f before v after, obj_visits o = before ++ (f, v) :: after ->
     (forall w, ~ In (f, w) before) ->
     obj_get o f = Some v /\ obj_get_with_source o f = Some (v, o)) /\
  (forall f, (forall w, ~ In (f, w) (obj_visits o)) ->
     obj_get o f = match obj_parent o with Some p => obj_get p f | None => None end) /\
  obj_len o = N.of_nat (List.length (obj_visits o)) /\
  (obj_is_empty o = true <-> obj_len o = 0) /\
  obj_iter o = obj_visits o /\
  (obj_has_parent o = true <-> exists p, obj_parent o = Some p).
Proof.
  rewrite obj_visits_eq. destruct o as [id ps par]. cbn [obj_pairs obj_parent].
  split; [|split; [|split; [|split; [|split; [|split]]]]]; auto.
  - intros f. unfold obj_contains. cbn [obj_pairs]. rewrite existsb_exists. split.
    + intros ((g, v) & I & E). apply str_eqb_iff in E. cbn in E. subst. eauto.
    + intros (v & I). exists (f, v). split; auto. apply str_eqb_iff. auto.
  - intros f b v af E NI. cbn [obj_get obj_get_with_source].
    assert (assoc f ps = Some v) as ->; auto. subst ps. clear - NI. induction b as [|[g w] b IH]; cbn.
    + rewrite str_eqb_refl. auto.
    + destruct (str_eqb g f) eqn:E.
      * apply str_eqb_iff in E. subst g. exfalso. apply (NI w). left; auto.
      * apply IH. intros w' I. apply (NI w'). right; auto.
  - intros f NI. cbn [obj_get]. assert (assoc f ps = None) as ->; auto.
    clear - NI. induction ps as [|[g w] b IH]; cbn; auto.
    destruct (str_eqb g f) eqn:E.
    + apply str_eqb_iff in E. subst g. exfalso. apply (NI w). left; auto.
    + apply IH. intros w' I. apply (NI w'). right; auto.
  - unfold obj_is_empty, obj_len. cbn [obj_pairs]. destruct ps; cbn; [intuition|split; [discriminate|lia]].
  - unfold obj_has_parent. cbn [obj_parent]. destruct par as [p|]; split; eauto; [discriminate|intros (p & X); discriminate].
Qed.

(** Any interleaving of [next] and [next_back]: [pull] runs it and returns what came from the front, what
    came from the back (in the order of the calls) and what is left. *)
Fixpoint pull {A : Type} (calls : list bool) (it : slice_iter A) : list A * list A * slice_iter A :=
  match calls with
  | [] => ([], [], it)
  | true :: cs =>
      let '(x, it') := iter_next it in
      let '(fs, bs, r) := pull cs it' in
      (match x with Some y => y :: fs | None => fs end, bs, r)
  | false :: cs =>
      let '(x, it') := iter_next_back it in
      let '(fs, bs, r) := pull cs it' in
      (fs, match x with Some y => y :: bs | None => bs end, r)
  end.
Lemma next_back_eq {A : Type} (it : list A) :
  match iter_next_back it with (Some x, r) => it = r ++ [x] | (None, r) => it = [] /\ r = [] end.
Proof.
  unfold iter_next_back. destruct (rev it) eqn:E.
  - split; auto. rewrite <- (rev_involutive it), E. auto.
  - rewrite <- (rev_involutive it), E. auto.
Qed.
(** No element is skipped, repeated or invented: front results, rest and reversed back results are the
    elements; after as many calls as there are elements nothing is left, and from then on both ends say
    [None]. *)
Theorem C45_double_ended_iteration {A : Type} calls (l : list A) fs bs r :
  pull calls l = (fs, bs, r) ->
  l = fs ++ r ++ rev bs /\
  List.length r = (List.length l - List.length calls)%nat /\
  (r = [] -> fst (iter_next r) = None /\ fst (iter_next_back r) = None).
Proof.
  revert l fs bs r. induction calls as [|c calls IH]; intros l fs bs r E.
  - cbn in E. injection E as <- <- <-. cbn. rewrite app_nil_r. split; [auto|split; [lia|intros ->; auto]].
  - assert (forall (x : list A), x = [] -> fst (iter_next x) = None /\ fst (iter_next_back x) = None) as N0
      by (intros ? ->; auto).
    cbn [pull] in E. destruct c.
    + destruct l as [|x l]; cbn [iter_next] in E.
      * destruct (pull calls []) as [[fs' bs'] r'] eqn:P. injection E as <- <- <-.
        apply IH in P as (P1 & P2 & _). repeat split; auto; cbn in *; try lia; try apply N0; auto.
      * destruct (pull calls l) as [[fs' bs'] r'] eqn:P. injection E as <- <- <-.
        apply IH in P as (P1 & P2 & _). split; [|split; [|auto]].
        -- rewrite P1 at 1. auto.
        -- cbn. auto.
    + pose proof (next_back_eq l) as NB. destruct (iter_next_back l) as [[x|] l'].
      * destruct (pull calls l') as [[fs' bs'] r'] eqn:P. injection E as <- <- <-.
        apply IH in P as (P1 & P2 & _). subst l. split; [|split; [|auto]].
        -- rewrite P1. cbn. rewrite <- !app_assoc. auto.
        -- rewrite P2, app_length. cbn. lia.
      * destruct NB as [-> ->]. destruct (pull calls []) as [[fs' bs'] r'] eqn:P. injection E as <- <- <-.
        apply IH in P as (P1 & P2 & _). split; [auto|split; [cbn in *; lia|auto]].
Qed.

(** The empty containers: nothing is visited, and the empty Arr is an Arr of Any, which is compatible with
    every Arr type ([==] of types) and takes the other type when combined. *)
(** Made from a [Vec]: the elements are those of the [Vec], in its order; a Tup from anything, an Arr from values that
    have a type in common. *)
Theorem C45_from_vec id vs :
  tup_visits (tup_from id vs) = vs /\ get_type (VTup (tup_from id vs)) = TTup (map get_type vs) /\
  (forall a, arr_try_from id vs = OOk a -> arr_visits a = vs /\ least_spec_all (map get_type vs) (arr_inner_type a)) /\
  ((exists e, arr_try_from id vs = OErr e) <-> ~ exists t, common_spec_all (map get_type vs) t).
Proof.
  rewrite tup_visits_eq. split; [reflexivity|]. split; [reflexivity|]. split.
  - intros a E. rewrite arr_visits_eq. apply (C09_from_values_result _ _ _ E).
  - rewrite <- (C09_from_values_accepts_iff id). unfold arr_try_from. destruct (arr_from_values id vs) as [a|e].
    + split; [intros (e & X); discriminate|]. intros X. exfalso. eauto.
    + split; [intros _ (a & X); discriminate|]. eauto.
Qed.
Theorem C45_empty_containers id :
  arr_visits (arr_empty id) = [] /\ tup_visits (tup_empty id) = [] /\
  obj_visits (obj_empty id) = [] /\ obj_parent (obj_empty id) = None /\
  get_type (VArr (arr_empty id)) = TArr TAny /\ get_type (VTup (tup_empty id)) = TTup [] /\
  (forall t, ty_eqb (get_type (VArr (arr_empty id))) (TArr t) = true).
Proof. repeat split. intros []; reflexivity. Qed.

Example C45_ex :
  let o := MkObj 1 [(lit "a", VInt 1); (lit "b", VInt 2)] (Some (MkObj 0 [(lit "c", VInt 3)] None)) in
  obj_with_each (fun s f _ => s ++ f) o [] = lit "ab" /\ obj_contains o (lit "c") = false /\
  obj_get o (lit "c") = Some (VInt 3) /\
  pull [true; false; true; true; false] [1; 2; 3] = ([1; 2], [3], []).
Proof. repeat split. Qed.
Print Assumptions C45_with_each_is_fold.
Print Assumptions C45_arr_views.
Print Assumptions C45_tup_views.
Print Assumptions C45_obj_views.
Print Assumptions C45_double_ended_iteration.
Print Assumptions C45_empty_containers.

(** ** C46: the constructing macros *)

(** [arr!] panics exactly if the elements have no common type; otherwise the Arr holds the converted
    elements in order and its type is the least common one. *)
Theorem C46_arr_macro id es :
  (arr_macro id es = None <-> ~ exists t, common_spec_all (map (fun n => get_type (value_from n)) es) t) /\
  (forall a, arr_macro id es = Some a ->
     try_arr_macro id es = OOk a /\
     arr_values a = map value_from es /\ arr_id a = id /\
     least_spec_all (map (fun n => get_type (value_from n)) es) (arr_inner_type a)).
Proof.
  assert (arr_macro id es = unwrap (try_arr_macro id es)) as -> by (destruct es; auto).
  rewrite <- (map_map value_from get_type). unfold try_arr_macro.
  rewrite <- (C09_from_values_accepts_iff id).
  destruct (arr_from_values id (map value_from es)) as [a|e] eqn:E; cbn [unwrap]; split.
  - split; [discriminate|]. intros H. exfalso; eauto.
  - intros a' [= <-]. pose proof (C09_from_values_result _ _ _ E) as [H1 H2].
    split; [auto|split; [auto|split; [|auto]]].
    unfold arr_from_values in E. destruct (arr_check _ _ _) as [t|[t1 t2]]; [|discriminate].
    injection E as <-. auto.
  - split; auto. intros _ (a & H). discriminate.
  - discriminate.
Qed.

(** [tup!] never panics and records the type of every element. *)
Theorem C46_tup_macro id es :
  tup_values (tup_macro id es) = map value_from es /\
  tup_types (tup_macro id es) = map (fun n => get_type (value_from n)) es /\
  tup_id (tup_macro id es) = id.
Proof. unfold tup_macro, tup_from_values. cbn. rewrite map_map. auto. Qed.

(** [int!] of a native integer is that integer, whatever its width; of anything else it does not exist. *)
Theorem C46_int_macro n z : native_ok n ->
  (int_macro n = Some z <-> get_int (value_from n) = OOk z) /\
  (int_macro n = Some z <-> (exists k, n = NInt k z) \/ n = NBigInt z).
Proof.
  intros _. split.
  - destruct n; cbn; split; intros E; try discriminate; try congruence.
  - split.
    + destruct n; cbn; intros E; try discriminate; injection E as <-; eauto.
    + intros [(k & ->)| ->]; reflexivity.
Qed.
Example C46_int_macro_ex : native_ok (NInt I64 5000000000) /\ int_macro (NInt I64 5000000000) = Some 5000000000%Z.
Proof. split; [vm_compute; split; discriminate|reflexivity]. Qed.

(** [obj!] with "^" entries: the parent is the last of them.  [obj!] panics exactly if that one is not an
    Obj or another entry has an invalid name; otherwise the other entries are the fields, in order. *)
Definition native_caret (e : str * native) : bool := str_eqb (fst e) (lit "^").
Definition last_caret (es : list (str * native)) : option native :=
  option_map snd (find native_caret (rev es)).
Definition parent_of (es : list (str * native)) (par : option obj) : Prop :=
  match last_caret es with
  | None => par = None
  | Some (NObj p) => par = Some p
  | Some _ => False
  end.
Definition fields_of (es : list (str * native)) : list (str * value) :=
  map (fun e => (fst e, value_from (snd e))) (filter (fun e => negb (native_caret e)) es).
Theorem C46_obj_macro `{Unicode} id es o :
  obj_macro id es = Some o <->
  Forall (fun e => api_field (fst e)) (filter (fun e => negb (native_caret e)) es) /\
  parent_of es (obj_parent o) /\ obj_pairs o = fields_of es /\ obj_id o = id.
Proof.
  assert (obj_macro id es = unwrap (try_obj_macro id es)) as -> by (destruct es; auto).
  unfold try_obj_macro. rewrite C31_try_obj.
  set (g := fun p : str * native => (fst p, value_from (snd p))).
  assert (F1 : find is_caret (rev (map g es)) = option_map g (find native_caret (rev es))).
  { rewrite <- map_rev. induction (rev es) as [|x l IH]; cbn [map find]; auto.
    change (is_caret (g x)) with (native_caret x). destruct (native_caret x); auto. }
  assert (F2 : filter (fun e => negb (is_caret e)) (map g es) = fields_of es).
  { unfold fields_of. fold g. clear F1. induction es as [|x l IH]; cbn [map filter]; auto.
    change (is_caret (g x)) with (native_caret x). destruct (native_caret x); cbn [negb map]; rewrite IH; auto. }
  fold g.
  replace (find is_caret _) with (option_map g (find native_caret (rev es))) by (symmetry; exact F1).
  replace (filter _ _) with (fields_of es) by (symmetry; exact F2).
 unfold parent_of, last_caret.
  assert (F3 : Forall (fun e => api_field (fst e)) (filter (fun e => negb (native_caret e)) es) <->
               Forall (fun p => api_field (fst p)) (fields_of es)).
  { unfold fields_of. rewrite Forall_map. cbn. tauto. }
  rewrite F3.
  assert (G : forall par, unwrap (obj_from_pairs id (fields_of es) par) = Some o <->
     Forall (fun p => api_field (fst p)) (fields_of es) /\ obj_parent o = par /\ obj_pairs o = fields_of es /\
     obj_id o = id).
  { intros par. pose proof (proj1 (C31_from_pairs id (fields_of es) par) o) as X.
    destruct (obj_from_pairs id (fields_of es) par) as [o'|e]; cbn [unwrap].
    - split.
      + intros [= ->]. destruct (proj1 X eq_refl) as [A ->]. auto.
      + intros (A & B & C & D). destruct o as [i ps p]. cbn in *. subst. f_equal.
        assert (OOk o' = OOk (MkObj id (fields_of es) par)) as E by (apply X; auto). congruence.
    - split; [discriminate|]. intros (A & B & C & D). destruct o as [i ps p]. cbn in *. subst.
      assert (OErr e = OOk (MkObj id (fields_of es) par)) as E by (apply X; auto). discriminate. }
  destruct (find native_caret (rev es)) as [[f n]|]; cbn [option_map g fst snd].
  - destruct n; cbn [value_from unwrap]; try (split; [discriminate|intros (_ & [] & _)]). apply G.
  - apply G.
Qed.

(** [frac!(a, b)] panics exactly for b = 0; otherwise it is the number a/b in lowest terms, and two fracs
    are the same number exactly if they are equal. *)
Theorem C46_frac_macro a b :
  (frac_macro a b = None <-> b = 0%Z) /\
  (forall q, frac_macro a b = Some q ->
     (q * inject_Z b == inject_Z a)%Q /\ Qred q = q) /\
  (forall c d q r, frac_macro a b = Some q -> frac_macro c d = Some r ->
     (value_eqb (VFrac q) (VFrac r) = true <-> (a * d = c * b)%Z)).
Proof.
  assert (X : forall a b, b <> 0%Z -> exists q, ratio_new a b = Some q /\
    (q == Qmake a 1 / Qmake b 1)%Q /\ Qred q = q).
  { intros x y Y. unfold ratio_new. destruct y as [|p|p]; [congruence| |];
      eexists; (split; [reflexivity|split; [|apply Qred_complete, Qred_correct]]); rewrite Qred_correct;
      unfold Qeq, Qdiv, Qmult, Qinv; cbn; lia. }
  assert (I : forall z, z <> 0%Z -> ~ (Qmake z 1 == 0)%Q).
  { intros z Z0 E. unfold Qeq in E. cbn in E. lia. }
  unfold frac_macro. split; [|split].
  - split; [|intros ->; auto]. intros E. destruct (Z.eq_dec b 0) as [|NZ]; auto.
    destruct (X a b NZ) as (q & E' & _). congruence.
  - intros q E. destruct (Z.eq_dec b 0) as [->|NZ]; [discriminate|].
    destruct (X a b NZ) as (q' & E' & Q1 & Q2). assert (q' = q) by congruence. subst q'. split; auto.
    rewrite Q1. unfold inject_Z. field. auto.
  - intros c d q r E1 E2. destruct (Z.eq_dec b 0) as [->|NZ]; [discriminate|].
    destruct (Z.eq_dec d 0) as [->|NZ']; [discriminate|].
    destruct (X a b NZ) as (q' & E' & Q1 & _). assert (q' = q) by congruence. subst q'.
    destruct (X c d NZ') as (r' & E'' & R1 & _). assert (r' = r) by congruence. subst r'.
    cbn [value_eqb]. rewrite Qeq_bool_iff, Q1, R1. split; intros E.
    + assert (Qmake a 1 * Qmake d 1 == Qmake c 1 * Qmake b 1)%Q as Y.
      { transitivity ((Qmake a 1 / Qmake b 1) * (Qmake b 1 * Qmake d 1))%Q; [field; auto|].
        rewrite E. field; auto. }
      unfold Qeq in Y. cbn in Y. lia.
    + assert (Qmake a 1 * Qmake d 1 == Qmake c 1 * Qmake b 1)%Q as Y by (unfold Qeq; cbn; lia).
      transitivity ((Qmake a 1 * Qmake d 1) / (Qmake b 1 * Qmake d 1))%Q; [field; auto|].
      rewrite Y. field; auto.
Qed.

Example C46_ex `{Unicode} :
  arr_macro 3 [NInt U8 1; NBool true] = None /\
  obj_macro 3 [(lit "a", NInt I64 1); (lit "^", NObj (MkObj 2 [] None))] =
    Some (MkObj 3 [(lit "a", VInt 1)] (Some (MkObj 2 [] None))) /\
  obj_macro 3 [(lit "^", NBool true)] = None /\ obj_macro 3 [(lit "a b", NBool true)] = None /\
  frac_macro 4 (-6) = Some (Qmake (-2) 3).
Proof. repeat split. Qed.
Print Assumptions C46_arr_macro.
Print Assumptions C46_tup_macro.
Print Assumptions C46_obj_macro.
Print Assumptions C46_frac_macro.
