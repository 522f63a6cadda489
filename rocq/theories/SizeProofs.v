(** * SizeProofs: the level of everything a load makes, against the characters it has taken. *)
From Verif Require Export Sizes CountProofs.
From Coq Require Import Psatz.
From Coq Require String.
Import String.StringSyntax.
Open Scope Z_scope.

(** ** Levels *)
Definition nb (b : Z) : Z := 16 ^ (4 ^ b).
Lemma two_mono a b : 0 <= a <= b -> 2 ^ a <= 2 ^ b.
Proof. intros H. apply Z.pow_le_mono_r; lia. Qed.
Lemma two_pos a : 0 <= a -> 1 <= 2 ^ a.
Proof. intros H. pose proof (two_mono 0 a). cbn in *. lia. Qed.
Lemma nb_mono a b : 0 <= a <= b -> nb a <= nb b.
Proof. intros H. apply Z.pow_le_mono_r; [lia|]. apply Z.pow_le_mono_r; lia. Qed.
Lemma four_ge n : 0 <= n -> n < 4 ^ n.
Proof. intros H. apply Z.pow_gt_lin_r; lia. Qed.
Lemma nb_ge a : 0 <= a -> 16 <= nb a.
Proof. intros H. change 16 with (nb 0) at 1. apply nb_mono. lia. Qed.
Lemma nb_sq b : 0 <= b -> 2 * (nb b * nb b) <= nb (b + 1).
Proof.
  intros H. unfold nb at 3. rewrite Z.pow_add_r by lia. replace (4 ^ b * 4 ^ 1) with (4 ^ b + (4 ^ b + (4 ^ b + 4 ^ b))) by lia.
  rewrite !Z.pow_add_r by (pose proof (four_ge b H); lia). fold (nb b). pose proof (nb_ge b H). nia.
Qed.
Lemma nb_one b x : 0 <= b -> x <= nb b -> x <= nb (b + 1).
Proof. intros H X. pose proof (nb_mono b (b + 1)). lia. Qed.
Lemma ten_nb n b : 0 <= n <= b -> 10 ^ n <= nb b.
Proof.
  intros H. transitivity (16 ^ n); [apply Z.pow_le_mono_l; lia|]. apply Z.pow_le_mono_r; [lia|]. pose proof (four_ge b). pose proof (Z.pow_le_mono_r 4 n b). lia.
Qed.
Lemma len_two n b : 0 <= n <= b -> n <= 2 ^ b.
Proof. intros H. pose proof (Z.pow_gt_lin_r 2 n). pose proof (two_mono n b). lia. Qed.

Lemma fits_mono a b v : 0 <= a <= b -> within_level a v -> within_level b v.
Proof.
  intros H. pose proof (two_mono a b H). pose proof (nb_mono a b H) as N. unfold nb in N. destruct v; cbn [within_level]; lia.
Qed.
Lemma small_mono a b v : 0 <= a <= b -> small a v -> small b v.
Proof. intros H S w P. eapply fits_mono; eauto. Qed.
Lemma small_part b v w : part w v -> small b v -> small b w.
Proof. intros P S u Q. apply S. clear S. induction P; eauto using part. Qed.
Lemma small_leaf b v : match v with VArr _ | VTup _ | VObj _ => False | _ => True end -> within_level b v -> small b v.
Proof. intros L F w P. destruct P; try contradiction. exact F. Qed.
Definition sps (b : Z) (ps : list (str * value)) : Prop := forall f v, In (f, v) ps -> small b v.
Definition svs (b : Z) (vs : list value) : Prop := forall v, In v vs -> small b v.
Definition spar (b : Z) (p : option obj) : Prop := match p with Some o => small b (VObj o) | None => True end.
Lemma sps_mono a b ps : 0 <= a <= b -> sps a ps -> sps b ps.
Proof. intros H S f v I. eapply small_mono; eauto. Qed.
Lemma svs_mono a b ps : 0 <= a <= b -> svs a ps -> svs b ps.
Proof. intros H S v I. eapply small_mono; eauto. Qed.
Lemma spar_mono a b p : 0 <= a <= b -> spar a p -> spar b p.
Proof. intros H S. destruct p; [|exact I]. eapply small_mono; eauto. Qed.
Lemma small_obj b i ps par : Z.of_nat (length ps) <= 2 ^ b -> sps b ps -> spar b par -> small b (VObj (MkObj i ps par)).
Proof. intros L S P w Q. inversion Q; subst; [exact L|eapply S; eauto|eapply P; eauto]. Qed.
Lemma small_arr b i t vs : Z.of_nat (length vs) <= 2 ^ b -> svs b vs -> small b (VArr (MkArr i t vs)).
Proof. intros L S w Q. inversion Q; subst; [exact L|eapply S; eauto]. Qed.
Lemma small_tup b i t vs : Z.of_nat (length vs) <= 2 ^ b -> svs b vs -> small b (VTup (MkTup i t vs)).
Proof. intros L S w Q. inversion Q; subst; [exact L|eapply S; eauto]. Qed.
Lemma arr_kids b a : small b (VArr a) -> Z.of_nat (length (arr_values a)) <= 2 ^ b /\ svs b (arr_values a).
Proof. intros S. split; [apply (S (VArr a)); constructor|]. intros v I. eapply small_part; [|exact S]. destruct a. econstructor; eauto. constructor. Qed.
Lemma tup_kids b a : small b (VTup a) -> Z.of_nat (length (tup_values a)) <= 2 ^ b /\ svs b (tup_values a).
Proof. intros S. split; [apply (S (VTup a)); constructor|]. intros v I. eapply small_part; [|exact S]. destruct a. econstructor; eauto. constructor. Qed.
Lemma obj_kids b o : small b (VObj o) -> sps b (obj_pairs o).
Proof. intros S f v I. eapply small_part; [|exact S]. destruct o. econstructor; eauto. constructor. Qed.

(** ** Numbers *)
Definition qf (b : Z) (q : Q) : Prop := Z.abs (Qnum q) <= nb b /\ Zpos (Qden q) <= nb b.
Lemma qred_le q : Z.abs (Qnum (Qred q)) <= Z.abs (Qnum q) /\ Zpos (Qden (Qred q)) <= Zpos (Qden q).
Proof.
  destruct q as [n d]. unfold Qred. pose proof (Z.ggcd_correct_divisors n (Zpos d)) as H. pose proof (Z.ggcd_gcd n (Zpos d)) as G.
  pose proof (Z.gcd_nonneg n (Zpos d)) as Gn. destruct (Z.ggcd n (Zpos d)) as [g [a b]]. cbn [fst snd Qnum Qden] in *. destruct H as [H1 H2].
  rewrite <- G in Gn. assert (g <> 0) by (intros ->; discriminate H2). assert (0 < g) by lia. assert (0 < b) by nia. rewrite Z2Pos.id by lia. rewrite H1, Z.abs_mul, (Z.abs_eq g) by lia. pose proof (Z.abs_nonneg a). split; nia.
Qed.
Lemma qf_red b n d : Z.abs n <= nb b -> Zpos d <= nb b -> qf b (Qred (Qmake n d)).
Proof. intros N D. pose proof (qred_le (Qmake n d)) as [A B]. cbn [Qnum Qden] in *. split; lia. Qed.
Lemma qf_bin b x y n d : 0 <= b -> qf b x -> qf b y -> Z.abs n <= 2 * (nb b * nb b) -> Zpos d <= 2 * (nb b * nb b) -> qf (b + 1) (Qred (Qmake n d)).
Proof. intros B _ _ N D. pose proof (nb_sq b B). apply qf_red; lia. Qed.
Lemma qf_add b x y : 0 <= b -> qf b x -> qf b y -> qf (b + 1) (q_add x y).
Proof.
  intros B X Y. pose proof X as [X1 X2]. pose proof Y as [Y1 Y2]. destruct x as [n d], y as [n' d']. cbn [Qnum Qden] in *. unfold q_add, Qplus. cbn [Qnum Qden].
  eapply qf_bin; eauto; [|rewrite Pos2Z.inj_mul; nia]. rewrite Z.abs_le. apply Z.abs_le in X1, Y1. nia.
Qed.
Lemma qf_opp b x : qf b x -> qf b (Qopp x).
Proof. intros [X Y]. destruct x. unfold qf in *. cbn in *. lia. Qed.
Lemma qf_sub b x y : 0 <= b -> qf b x -> qf b y -> qf (b + 1) (q_sub x y).
Proof. intros B X Y. unfold q_sub, Qminus. apply (qf_add b x (Qopp y) B X (qf_opp _ _ Y)). Qed.
Lemma qf_mul b x y : 0 <= b -> qf b x -> qf b y -> qf (b + 1) (q_mul x y).
Proof.
  intros B X Y. pose proof X as [X1 X2]. pose proof Y as [Y1 Y2]. destruct x as [n d], y as [n' d']. cbn [Qnum Qden] in *. unfold q_mul, Qmult. cbn [Qnum Qden].
  eapply qf_bin; eauto; [|rewrite Pos2Z.inj_mul; nia]. rewrite Z.abs_mul. nia.
Qed.
Lemma qf_inv b x : 0 <= b -> qf b x -> qf b (Qinv x).
Proof.
  intros B [X Y]. pose proof (nb_ge b B). destruct x as [[|p|p] d]; unfold qf, Qinv in *; cbn [Qnum Qden] in *; lia.
Qed.
Lemma qf_div b x y : 0 <= b -> qf b x -> qf b y -> qf (b + 1) (q_div x y).
Proof. intros B X Y. unfold q_div, Qdiv. apply (qf_mul b x (Qinv y) B X (qf_inv _ _ B Y)). Qed.
Lemma qf_ratio b n d q : Z.abs n <= nb b -> Z.abs d <= nb b -> ratio_new n d = Some q -> qf b q.
Proof.
  intros N D E. destruct d as [|p|p]; [discriminate|..]; injection E as <-; apply qf_red; lia.
Qed.
Lemma qf_mono a b q : 0 <= a <= b -> qf a q -> qf b q.
Proof. intros H [X Y]. pose proof (nb_mono a b H). split; lia. Qed.
Lemma small_frac b q : qf b q -> small b (VFrac q).
Proof. intros H. apply small_leaf; [exact I|exact H]. Qed.
Lemma small_int b z : Z.abs z <= nb b -> small b (VInt z).
Proof. intros H. apply small_leaf; [exact I|exact H]. Qed.
Lemma frac_small b q : small b (VFrac q) -> qf b q.
Proof. intros H. apply (H (VFrac q)). constructor. Qed.
Lemma int_small b z : small b (VInt z) -> Z.abs z <= nb b.
Proof. intros H. apply (H (VInt z)). constructor. Qed.
Lemma str_small b z : small b (VStr z) -> Z.of_nat (length z) <= 2 ^ b.
Proof. intros H. apply (H (VStr z)). constructor. Qed.
Lemma small_str b z : Z.of_nat (length z) <= 2 ^ b -> small b (VStr z).
Proof. intros H. apply small_leaf; [exact I|exact H]. Qed.
Lemma dec_fold s : forall a, forallb is_digit s = true -> Z.of_N (fold_left (fun a c => a * 10 + (c - 48))%N s a) + 1 <= (Z.of_N a + 1) * 10 ^ Z.of_nat (length s).
Proof.
  induction s as [|c s IH]; intros a D; [cbn; lia|]. cbn [forallb] in D. apply andb_prop in D as [D1 D2]. cbn [fold_left length].
  specialize (IH (a * 10 + (c - 48))%N D2). rewrite Nat2Z.inj_succ, Z.pow_succ_r by lia. pose proof (Z.pow_pos_nonneg 10 (Z.of_nat (length s))).
  unfold is_digit in D1. apply andb_prop in D1 as [D1 D3]. apply N.leb_le in D1, D3. nia.
Qed.
Lemma dec_val_lt s : forallb is_digit s = true -> Z.of_N (dec_val s) + 1 <= 10 ^ Z.of_nat (length s).
Proof. intros D. pose proof (dec_fold s 0 D) as H. unfold dec_val. lia. Qed.
Lemma drop_zeros_len s : (length (drop_zeros s) <= length s)%nat.
Proof. induction s as [|c s IH]; cbn; [lia|]. destruct (_ =? _)%N; cbn [length]; lia. Qed.
Lemma trim_len s : (length (trim_end_zeros s) <= length s)%nat.
Proof. unfold trim_end_zeros. rewrite rev_length. pose proof (drop_zeros_len (rev s)). rewrite rev_length in *. assumption. Qed.

(** ** Leaves *)
Definition keep (s q : pstate) : Prop := s_globals q = s_globals s /\ sh_vals (s_sh q) = sh_vals (s_sh s).
Lemma keep_refl s : keep s s. Proof. split; reflexivity. Qed.
Lemma keep_trans a b c : keep a b -> keep b c -> keep a c.
Proof. intros [X Y] [Z W]. split; congruence. Qed.
Definition kp {A} (m : M A) : Prop := forall s, keep s (snd (m s)).
Lemma kp_bind {A B} (m : M A) (f : A -> M B) : kp m -> (forall a, kp (f a)) -> kp (bind m f).
Proof. intros H F s. specialize (H s). unfold bind. destruct (m s) as [[a|e| |] q]; cbn in *; auto. eapply keep_trans; [exact H|apply F]. Qed.
Lemma kp_scan {A} (f : str -> N -> N -> A * (str * N * N)) :
  kp (fun s => let '(x, (r, l, k)) := f (s_rest s) (s_line s) (s_col s) in (Ok x, set_stream s r l k)).
Proof. intros s. destruct (f _ _ _) as [x [[r l] k]]. split; reflexivity. Qed.
Lemma kp_sentinel k : kp (sentinel k).
Proof. intros s. unfold sentinel. destruct (g_sent _ _); split; reflexivity. Qed.
Lemma kp_next : kp next.
Proof. intros s. unfold next. destruct (s_rest s); [split; reflexivity|]. destruct (adv _ _ _). split; reflexivity. Qed.
Lemma kp_col : kp col_minus_1.
Proof. intros s. unfold col_minus_1. destruct (_ =? _)%N; split; reflexivity. Qed.
Lemma kp_find : kp find_char.
Proof. apply (kp_scan (fun r l k => find_char_l r l k false)). Qed.
Ltac k1 :=
  match goal with
  | |- kp (bind _ _) => apply kp_bind; [|intros]
  | |- kp (if ?b then _ else _) => destruct b
  | |- kp (match ?x with _ => _ end) => destruct x
  | |- kp (let _ := _ in _) => cbv zeta
  | |- kp next => apply kp_next
  | |- kp find_char => apply kp_find
  | |- kp (sentinel _) => apply kp_sentinel
  | |- kp col_minus_1 => apply kp_col
  | |- kp (fun s => let '(x, q) := scan_str _ _ _ ?a ?b in _) => apply (kp_scan (fun r l k => scan_str r l k a b))
  | |- kp (fun s => let '(x, q) := scan_numeric _ _ _ ?a ?b ?c ?d in _) => apply (kp_scan (fun r l k => scan_numeric r l k a b c d))
  | |- kp (fun s => let '(x, q) := scan_field _ _ _ ?a ?b in _) => apply (kp_scan (fun r l k => scan_field r l k a b))
  | |- kp (fun s => let '(x, q) := scan_var _ _ _ ?a in _) => apply (kp_scan (fun r l k => scan_var r l k a))
  | |- kp (new_obj _ _) => unfold new_obj
  | |- kp (new_arr _ _) => unfold new_arr
  | |- kp (new_tup _) => unfold new_tup
  | |- kp (unwrap _) => unfold unwrap
  | |- kp (unwrap_o _) => unfold unwrap_o
  | |- kp (assert_ _) => unfold assert_
  | |- kp peek_unwrap => unfold peek_unwrap
  | |- kp next_unwrap => unfold next_unwrap
  | |- kp (check_value_end _) => unfold check_value_end
  | |- kp (parse_field _ _) => unfold parse_field
  | |- kp parse_str => unfold parse_str
  | |- kp (parse_bigint _) => unfold parse_bigint
  | |- kp (parse_numeric _ _) => unfold parse_numeric
  | |- kp (unary_op_on_value _ _ _ _) => unfold unary_op_on_value
  | |- kp (binary_op_on_values _ _ _ _ _) => unfold binary_op_on_values
  | |- kp (include_token _ _ _) => unfold include_token
  | |- kp (index_by _ _ _ _) => unfold index_by
  | |- kp (lookup_variable _ _ _ _ _) => unfold lookup_variable
  | |- kp _ => intros ?; split; reflexivity
  end.
Section Leaves.
Context `{U : Unicode}.
Lemma kp_str : kp parse_str. Proof. repeat k1. Qed.
Lemma kp_numeric l k : kp (parse_numeric l k). Proof. repeat k1. Qed.
Lemma kp_field l k : kp (parse_field l k). Proof. repeat k1. Qed.
Lemma kp_unary a b c d : kp (unary_op_on_value a b c d). Proof. repeat k1. Qed.
Lemma kp_binop a b c d e : kp (binary_op_on_values a b c d e). Proof. repeat k1. Qed.
Lemma kp_token a b c : kp (include_token a b c). Proof. repeat k1. Qed.
Lemma kp_index a b c d : kp (index_by a b c d). Proof. repeat k1. Qed.
Lemma kp_lookup a b c d e : kp (lookup_variable a b c d e). Proof. repeat k1. Qed.

Ltac bd H := unfold bind in H at 1.
(** An operation gives at most one level more. *)
Lemma binop_small b v w op l k s r q : 0 <= b -> small b v -> small b w -> binary_op_on_values v w op l k s = (Ok r, q) -> small (b + 1) r.
Proof.
  intros B V W. unfold binary_op_on_values.
  assert (F : forall (z : Z) x, small b (VInt z) -> ratio_new z 1 = Some x -> qf b x).
  { intros z x Z E. eapply qf_ratio; [apply (int_small _ _ Z)| |exact E]. pose proof (nb_ge b B). lia. }
  assert (G : forall (v w : value), small b v -> small b w -> forall t t', t = get_type v -> t' = get_type w ->
    match op with
    | BPlus => match t with
        | TInt => if ty_eqb t' TInt then let* a := unwrap_o (get_int v) in let* b := unwrap_o (get_int w) in ret (VInt (a + b)) else fail (BinaryOperatorError t t' op l k)
        | TFrac => if ty_eqb t' TFrac then let* a := unwrap_o (get_frac v) in let* b := unwrap_o (get_frac w) in ret (VFrac (q_add a b)) else fail (BinaryOperatorError t t' op l k)
        | TStr => if ty_eqb t' TStr then let* a := unwrap_o (get_str v) in let* b := unwrap_o (get_str w) in ret (VStr (a ++ b)) else fail (BinaryOperatorError t t' op l k)
        | TArr _ => match most_specific t t' with
            | Some (t, _) => let* a := unwrap_o (get_arr v) in let* b := unwrap_o (get_arr w) in
                match t with TArr t => let* r := new_arr (arr_values a ++ arr_values b) t in ret (VArr r) | _ => panic end
            | None => fail (BinaryOperatorError t t' op l k) end
        | _ => fail (BinaryOperatorError t t' op l k) end
    | BMinus => match t with
        | TInt => if ty_eqb t' TInt then let* a := unwrap_o (get_int v) in let* b := unwrap_o (get_int w) in ret (VInt (a - b)) else fail (BinaryOperatorError t t' op l k)
        | TFrac => if ty_eqb t' TFrac then let* a := unwrap_o (get_frac v) in let* b := unwrap_o (get_frac w) in ret (VFrac (q_sub a b)) else fail (BinaryOperatorError t t' op l k)
        | _ => fail (BinaryOperatorError t t' op l k) end
    | BMult => match t with
        | TInt => if ty_eqb t' TInt then let* a := unwrap_o (get_int v) in let* b := unwrap_o (get_int w) in ret (VInt (a * b)) else fail (BinaryOperatorError t t' op l k)
        | TFrac => if ty_eqb t' TFrac then let* a := unwrap_o (get_frac v) in let* b := unwrap_o (get_frac w) in ret (VFrac (q_mul a b)) else fail (BinaryOperatorError t t' op l k)
        | _ => fail (BinaryOperatorError t t' op l k) end
    | BDiv => match t with
        | TInt => if ty_eqb t' TInt then let* a := unwrap_o (get_int v) in let* b := unwrap_o (get_int w) in
              if Z.eqb b 0 then fail (InvalidNumeric l k) else let* q := unwrap (ratio_new a b) in ret (VFrac q)
            else fail (BinaryOperatorError t t' op l k)
        | TFrac => if ty_eqb t' TFrac then let* a := unwrap_o (get_frac v) in let* b := unwrap_o (get_frac w) in
              if q_is_zero b then fail (InvalidNumeric l k) else ret (VFrac (q_div a b))
            else fail (BinaryOperatorError t t' op l k)
        | _ => fail (BinaryOperatorError t t' op l k) end
    | BMod => match t with
        | TInt => if ty_eqb t' TInt then let* b := unwrap_o (get_int w) in
              if Z.eqb b 0 then fail (InvalidNumeric l k) else let* a := unwrap_o (get_int v) in ret (VInt (Z.rem a b))
            else fail (BinaryOperatorError t t' op l k)
        | _ => fail (BinaryOperatorError t t' op l k) end
    end s = (Ok r, q) -> small (b + 1) r).
  { clear V W v w F. intros v w V W t t' -> ->. pose proof (nb_sq b B) as Sq. pose proof (nb_ge b B) as Ge. assert (Db : 2 * nb b <= nb (b + 1)) by nia.
    destruct op, v; cbn [get_type]; try discriminate.
    all: try (destruct (most_specific _ _) as [[t0 ?]|]; [|discriminate]).
    all: destruct w; cbn [get_type ty_eqb]; try discriminate.
    all: unfold bind, ret, unwrap_o, unwrap; cbn [get_int get_frac get_str get_arr ty_is]; unfold ret, fail; cbv beta iota; try discriminate.
    all: try (apply int_small in V; apply int_small in W); try (apply frac_small in V; apply frac_small in W); try (apply str_small in V; apply str_small in W).
    - intros K. injection K as <- _. apply small_int. lia.
    - intros K. injection K as <- _. apply small_frac, qf_add; auto.
    - intros K. injection K as <- _. apply small_str. rewrite app_length, Z.pow_add_r by lia. lia.
    - destruct t0; try discriminate. unfold new_arr, bind, gen_id, ret. intros K. injection K as <- _.
      apply arr_kids in V as [V1 V2]. apply arr_kids in W as [W1 W2]. apply small_arr.
      + rewrite app_length, Z.pow_add_r by lia. lia.
      + intros x I. apply in_app_or in I as [I|I]; (eapply small_mono; [|eauto]; lia).
    - intros K. injection K as <- _. apply small_int. lia.
    - intros K. injection K as <- _. apply small_frac, qf_sub; auto.
    - intros K. injection K as <- _. apply small_int. rewrite Z.abs_mul. nia.
    - intros K. injection K as <- _. apply small_frac, qf_mul; auto.
    - destruct (Z.eqb z0 0); [unfold fail; intros K; discriminate K|]. destruct (ratio_new _ _) eqn:E; [|intros K; discriminate K]. intros K. injection K as <- _.
      apply small_frac. apply (qf_mono b); [lia|]. eapply qf_ratio; [exact V|exact W|exact E].
    - match goal with |- context [q_is_zero ?z] => destruct (q_is_zero z) end; [intros K; discriminate K|]. intros K. injection K as <- _. apply small_frac, qf_div; auto.
    - destruct (Z.eqb_spec z0 0) as [->|N]; [intros K; discriminate K|]. intros K. injection K as <- _. apply small_int.
      pose proof (Z.rem_bound_abs z z0 N). apply nb_one; lia. }
  assert (R : forall z, small b (VInt z) -> small b (VFrac (Qred (Qmake z 1)))).
  { intros z Z. apply small_frac. apply (F z _ Z). reflexivity. }
  destruct v, w; try exact (G _ _ V W _ _ eq_refl eq_refl).
  - exact (G _ _ (R _ V) W _ _ eq_refl eq_refl).
  - exact (G _ _ V (R _ W) _ _ eq_refl eq_refl).
Qed.
Lemma unary_small b v op l k s r q : small b v -> unary_op_on_value v op l k s = (Ok r, q) -> small b r.
Proof.
  intros V. unfold unary_op_on_value. destruct op, v; cbn [get_type]; try discriminate; unfold bind, ret, unwrap_o; cbn [get_int get_frac]; intros K; injection K as <- _; auto.
  - apply small_int. apply int_small in V. lia.
  - apply small_frac, qf_opp, frac_small, V.
Qed.
Lemma lookup_small b pairs var g l k s r q : 0 <= b -> sps b pairs -> sps b (s_globals s) -> lookup_variable pairs var g l k s = (Ok r, q) -> small b r.
Proof.
  intros B P G. unfold lookup_variable.
  assert (L : forall v, match v with VNull | VBool _ => True | _ => False end -> small b v).
  { intros v H. apply small_leaf; destruct v; try contradiction; exact I. }
  assert (S : forall k i, bind (sentinel k) (fun o => ret (VObj o)) s = (Ok i, q) -> small b i).
  { intros k0 i. unfold bind, sentinel, ret, obj_empty. pose proof (two_pos b B).
    destruct (g_sent _ _); intros K; injection K as <- _; apply small_obj; cbn [length]; try lia; try exact I; intros ? ? []. }
  repeat match goal with |- (if ?c then _ else _) s = _ -> _ => destruct c end; eauto.
  1-3: intros K; injection K as <- _; apply L; exact I.
  - discriminate.
  - unfold bind, get_globals. destruct (assoc var (s_globals s)) eqn:E; [|discriminate]. intros K. injection K as <- _. apply assoc_in in E. eauto.
  - destruct (assoc var pairs) eqn:E; [|discriminate]. intros K. injection K as <- _. apply assoc_in in E. eauto.
Qed.
Lemma index_small b get vs idx l k s r q : svs b vs -> (forall i v, get i = OOk v -> In v vs) -> index_by get idx l k s = (Ok r, q) -> small b r.
Proof.
  intros V G. unfold index_by. destruct idx; try discriminate. destruct (to_usize z); [|discriminate]. destruct (get n) eqn:E; [|discriminate].
  intros K. injection K as <- _. eauto.
Qed.
Lemma arr_get_in a i v : arr_get a i = OOk v -> In v (arr_values a).
Proof. unfold arr_get. destruct (_ <=? _)%N; [discriminate|]. destruct (nth_error _ _) eqn:E; [|discriminate]. intros K. injection K as <-. eapply nth_error_In; eauto. Qed.
Lemma tup_get_in a i v : tup_get a i = OOk v -> In v (tup_values a).
Proof. unfold tup_get. destruct (_ <=? _)%N; [discriminate|]. destruct (nth_error _ _) eqn:E; [|discriminate]. intros K. injection K as <-. eapply nth_error_In; eauto. Qed.

(** Literals *)
Lemma scan_str_len r : forall l k acc e z r' l' k', scan_str r l k acc e = (SS_ok z, (r', l', k')) -> (length z + length r' < length acc + length r)%nat.
Proof.
  induction r as [|c r IH]; intros l k acc e z r' l' k'; cbn; [discriminate|]. destruct (adv c l k). destruct e.
  - destruct (get_escape_char c); [|discriminate]. intros K. apply IH in K. rewrite app_length in K. cbn in K. lia.
  - destruct (c =? c_quote)%N; [intros K; inversion K; subst; lia|]. destruct (c =? c_bslash)%N; intros K; apply IH in K; rewrite ?app_length in K; cbn in K; lia.
Qed.
Lemma str_lit b s r q : 0 <= b -> parse_str s = (Ok r, q) -> small (b + (slen s - slen q)) r.
Proof.
  intros B. unfold parse_str. unfold bind at 1. destruct (next_unwrap s) as [[c|e| |] s1] eqn:N; try discriminate.
  apply next_unwrap_takes in N as [N _]. unfold bind at 1. destruct (assert_ _ s1) as [[[]|e| |] s2] eqn:A; try discriminate. apply assert_true in A as [_ ->].
  unfold bind at 1. destruct (scan_str (s_rest s1) (s_line s1) (s_col s1) [] false) as [[z|c0|] [[r' l'] k']] eqn:E; [|unfold bind; cbn; destruct k'; discriminate|discriminate].
  intros K. injection K as <- <-. apply scan_str_len in E. unfold slen in *. cbn [s_rest set_stream length] in *.
  apply small_str, len_two. lia.
Qed.
Lemma scan_num_len r : forall l k s1 s2 d u t1 t2 d' r' l' k', scan_numeric r l k s1 s2 d u = (NS_ok t1 t2 d', (r', l', k')) ->
  (length t1 + length t2 + (if d' then 1 else 0) + length r' <= length s1 + length s2 + (if d then 1 else 0) + length r)%nat.
Proof.
  induction r as [|c r IH]; intros l k s1 s2 d u t1 t2 d' r' l' k'; cbn; [intros K; inversion K; subst; cbn; lia|]. destruct (adv c l k).
  destruct (is_value_end_char c); [intros K; inversion K; subst; cbn [length]; lia|].
  destruct (is_digit c); [destruct d; cbn [negb]; intros K; apply IH in K; rewrite app_length in K; cbn [length] in K; lia|].
  destruct (_ || _)%bool; [destruct d; cbn [negb]; [discriminate|]; intros K; apply IH in K; lia|].
  destruct (_ =? _)%N; [|discriminate]. destruct u; cbn [negb]; [discriminate|]. intros K. apply IH in K. lia.
Qed.
Lemma bigint_len z s i q : parse_bigint z s = (Ok i, q) -> 0 <= i /\ i + 1 <= 10 ^ Z.of_nat (length z) /\ q = s.
Proof.
  unfold parse_bigint. destruct z; [discriminate|]. destruct (forallb is_digit _) eqn:D; [|discriminate]. intros K. injection K as <- <-.
  pose proof (dec_val_lt _ D). repeat split; auto. lia.
Qed.
Lemma numeric_lit b l k s r q : 0 <= b -> parse_numeric l k s = (Ok r, q) -> small (b + (slen s - slen q)) r.
Proof.
  intros B. unfold parse_numeric. unfold bind at 1.
  destruct (scan_numeric (s_rest s) (s_line s) (s_col s) [] [] false false) as [[t1 t2 d|c] [[r' l'] k']] eqn:E; [|unfold bind; cbn; discriminate].
  apply scan_num_len in E. cbn [length] in E. set (s0 := set_stream s r' l' k') in *.
  assert (L : Z.of_nat (length t1) + Z.of_nat (length t2) + (if d then 1 else 0) <= slen s - slen s0) by (unfold slen, s0; cbn [s_rest set_stream]; destruct d; lia).
  clearbody s0. destruct d.
  - assert (Fr : forall w dec n, 0 <= w -> w + 1 <= 10 ^ Z.of_nat (length t1) -> 0 <= dec -> dec + 1 <= 10 ^ Z.of_nat n -> (n <= length t2 \/ n = 1)%nat ->
      forall f, frac_from_whole_and_dec w dec n = Some f -> small (b + (slen s - slen s0)) (VFrac f)).
    { intros w dec n W0 W D0 D N f. unfold frac_from_whole_and_dec. cbn [ratio_new].
      assert (P : 0 < 10 ^ Z.of_nat n) by (apply Z.pow_pos_nonneg; lia). destruct (10 ^ Z.of_nat n) as [|p|p] eqn:Ep; try lia. cbn [ratio_new].
      intros K. assert (K' : f = Qred (Qplus (Qred (Qmake w 1)) (Qred (Qmake dec p)))) by congruence. rewrite K'. clear K K'. apply small_frac.
      assert (T : 10 ^ (Z.of_nat (length t1) + Z.of_nat n) <= nb (b + (slen s - slen s0))) by (apply ten_nb; lia).
      rewrite Z.pow_add_r, Ep in T by lia. assert (P1 : 1 <= 10 ^ Z.of_nat (length t1)) by lia.
      pose proof (qred_le (Qmake w 1)) as [A1 A2]. pose proof (qred_le (Qmake dec p)) as [A3 A4]. cbn [Qnum Qden] in A1, A2, A3, A4.
      pose proof (qred_le (Qplus (Qred (Qmake w 1)) (Qred (Qmake dec p)))) as [A5 A6].
      destruct (Qred (Qmake w 1)) as [n1 d1], (Qred (Qmake dec p)) as [n2 d2]. unfold Qplus in A5, A6 |- *. cbn [Qnum Qden] in *.
      assert (d1 = 1%positive) by lia. subst d1. rewrite Pos.mul_1_l in *. rewrite Z.mul_1_r in *. apply Z.abs_le in A1, A3.
      assert (Z.abs (n1 * Zpos d2 + n2) <= 10 ^ Z.of_nat (length t1) * Zpos p) by (apply Z.abs_le; nia).
      split; [lia|]. nia. }
    assert (G : forall w sw, 0 <= w -> w + 1 <= 10 ^ Z.of_nat (length t1) -> slen sw = slen s0 ->
      (let s2 := trim_end_zeros t2 in
            let* '(decimal, dec_len) := (match s2 with [] => ret (0%Z, 1%nat) | _ => let* d := parse_bigint s2 in ret (d, List.length s2) end) in
            let* f := unwrap (frac_from_whole_and_dec w decimal dec_len) in ret (VFrac f)) sw = (Ok r, q) -> small (b + (slen s - slen q)) r).
    { intros w sw W0 W Es. cbv zeta. pose proof (trim_len t2) as Tl. destruct (trim_end_zeros t2) as [|c0 t0] eqn:Et.
      - unfold bind, ret. destruct (frac_from_whole_and_dec w 0 1) eqn:Ef; [|discriminate]. intros K. injection K as <- <-. rewrite Es.
        eapply Fr; [exact W0|exact W| | |right; reflexivity|exact Ef]; lia.
      - unfold bind at 1. unfold bind at 1. destruct (parse_bigint (c0 :: t0) sw) as [[i|e| |] q'] eqn:Eb; try discriminate. apply bigint_len in Eb as (I0 & I1 & ->).
        unfold bind, ret. destruct (frac_from_whole_and_dec w i _) eqn:Ef; [|discriminate]. intros K. injection K as <- <-. rewrite Es.
        eapply Fr; [exact W0|exact W|exact I0|exact I1|left; exact Tl|exact Ef]. }
    assert (G0 : forall w sw, 0 <= w -> w + 1 <= 10 ^ Z.of_nat (length t1) -> slen sw = slen s0 -> t1 <> [] \/ t2 <> [] -> True) by auto. clear G0.
    destruct t1 as [|c1 t1].
    + destruct t2 as [|c2 t2]; [discriminate|]. unfold bind at 1. apply (G 0 s0); cbn; lia.
    + assert (X : bind (parse_bigint (c1 :: t1)) (fun whole => 
            let s2 := trim_end_zeros t2 in
            let* '(decimal, dec_len) := (match s2 with [] => ret (0%Z, 1%nat) | _ => let* d := parse_bigint s2 in ret (d, List.length s2) end) in
            let* f := unwrap (frac_from_whole_and_dec whole decimal dec_len) in ret (VFrac f)) s0 = (Ok r, q) -> small (b + (slen s - slen q)) r).
      { unfold bind at 1. destruct (parse_bigint (c1 :: t1) s0) as [[i|e| |] q'] eqn:Eb; try discriminate. apply bigint_len in Eb as (I0 & I1 & ->). apply G; auto. }
      destruct t2; exact X.
  - destruct t1 as [|c1 t1]; [discriminate|]. unfold bind at 1. destruct (parse_bigint (c1 :: t1) s0) as [[i|e| |] q'] eqn:Eb; try discriminate.
    apply bigint_len in Eb as (I0 & I1 & ->). intros K. injection K as <- <-. apply small_int.
    pose proof (ten_nb (Z.of_nat (length (c1 :: t1))) (b + (slen s - slen s0))). lia.
Qed.
End Leaves.
