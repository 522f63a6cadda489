(** * Wp: weakest preconditions for the parser monad. *)
From Verif Require Export Parser ValueSpec.
Open Scope N_scope.

(** [X true] is what must hold if the run ends in [Panic], [X false] if it ends in [NoFuel]:
    [False] for total correctness, [True] for partial correctness. *)
Definition wp {A} (X : bool -> Prop) (m : M A) (Q : A -> pstate -> Prop) (E : perr -> pstate -> Prop)
  (s : pstate) : Prop :=
  match m s with
  | (Ok a, s') => Q a s'
  | (Err e, s') => E e s'
  | (Panic, _) => X true
  | (NoFuel, _) => X false
  end.

Lemma wp_mono {A} X (m : M A) (Q Q' : A -> pstate -> Prop) (E E' : perr -> pstate -> Prop) s :
  wp X m Q E s -> (forall a s', Q a s' -> Q' a s') -> (forall e s', E e s' -> E' e s') ->
  wp X m Q' E' s.
Proof. unfold wp. destruct (m s) as [[] ?]; auto. Qed.

Lemma wp_bind {A B} X (m : M A) (f : A -> M B) Q E s :
  wp X m (fun a s' => wp X (f a) Q E s') E s -> wp X (bind m f) Q E s.
Proof. unfold wp, bind. destruct (m s) as [[] ?]; auto. Qed.

Lemma wp_ret {A} X (a : A) (Q : A -> pstate -> Prop) E s : Q a s -> wp X (ret a) Q E s.
Proof. auto. Qed.
Lemma wp_fail {A} X k (Q : A -> pstate -> Prop) (E : perr -> pstate -> Prop) s :
  E (mkperr (s_file s) k) s -> wp X (fail k) Q E s.
Proof. auto. Qed.
Lemma wp_raise {A} X e (Q : A -> pstate -> Prop) (E : perr -> pstate -> Prop) s :
  E e s -> wp X (raise e) Q E s.
Proof. auto. Qed.
Lemma wp_panic {A} (X : bool -> Prop) (Q : A -> pstate -> Prop) E s : X true -> wp X panic Q E s.
Proof. auto. Qed.
Lemma wp_nofuel {A} (X : bool -> Prop) (Q : A -> pstate -> Prop) E s : X false -> wp X nofuel Q E s.
Proof. auto. Qed.
Lemma wp_peek X (Q : option char -> pstate -> Prop) E s :
  Q (hd_error (s_rest s)) s -> wp X peek Q E s.
Proof. unfold wp, peek. destruct (s_rest s); auto. Qed.
Lemma wp_getpos X (Q : N * N -> pstate -> Prop) E s :
  Q (s_line s, s_col s) s -> wp X getpos Q E s.
Proof. auto. Qed.
Lemma wp_getline X (Q : N -> pstate -> Prop) E s : Q (s_line s) s -> wp X getline Q E s.
Proof. auto. Qed.
Lemma wp_getfile X (Q : option str -> pstate -> Prop) E s : Q (s_file s) s -> wp X getfile Q E s.
Proof. auto. Qed.
Lemma wp_get_globals X (Q : list (str * value) -> pstate -> Prop) E s :
  Q (s_globals s) s -> wp X get_globals Q E s.
Proof. auto. Qed.
Lemma wp_get_sh X (Q : shared -> pstate -> Prop) E s : Q (s_sh s) s -> wp X get_sh Q E s.
Proof. auto. Qed.
Lemma wp_put_sh X sh (Q : unit -> pstate -> Prop) E s : Q tt (set_sh s sh) -> wp X (put_sh sh) Q E s.
Proof. auto. Qed.
Lemma wp_insert_global X f v (Q : unit -> pstate -> Prop) E s :
  Q tt (set_globals s ((f, v) :: s_globals s)) -> wp X (insert_global f v) Q E s.
Proof. auto. Qed.

(** One step of the stream. *)
Definition adv1 (s : pstate) (c : char) (r : str) : pstate :=
  set_stream s r (fst (adv c (s_line s) (s_col s))) (snd (adv c (s_line s) (s_col s))).

Lemma wp_next_cons X (Q : option char -> pstate -> Prop) E s c r :
  s_rest s = c :: r -> Q (Some c) (adv1 s c r) -> wp X next Q E s.
Proof. unfold wp, next, adv1. intros ->. destruct (adv c (s_line s) (s_col s)); auto. Qed.
Lemma wp_next_nil X (Q : option char -> pstate -> Prop) E s :
  s_rest s = [] -> Q None s -> wp X next Q E s.
Proof. unfold wp, next. intros ->. auto. Qed.
Lemma wp_peek_unwrap X (Q : char -> pstate -> Prop) E s c r :
  s_rest s = c :: r -> Q c s -> wp X peek_unwrap Q E s.
Proof. unfold wp, peek_unwrap, bind, peek. intros ->. auto. Qed.
Lemma wp_next_unwrap X (Q : char -> pstate -> Prop) E s c r :
  s_rest s = c :: r -> Q c (adv1 s c r) -> wp X next_unwrap Q E s.
Proof.
  unfold wp, next_unwrap, bind, next, adv1. intros ->. destruct (adv c (s_line s) (s_col s)); auto.
Qed.
Lemma wp_assert_true X b (Q : unit -> pstate -> Prop) E s :
  b = true -> Q tt s -> wp X (assert_ b) Q E s.
Proof. intros ->. auto. Qed.

Lemma adv1_rest s c r : s_rest (adv1 s c r) = r.
Proof. reflexivity. Qed.
Lemma adv1_file s c r : s_file (adv1 s c r) = s_file s.
Proof. reflexivity. Qed.
Lemma adv1_sh s c r : s_sh (adv1 s c r) = s_sh s.
Proof. reflexivity. Qed.
Lemma adv1_globals s c r : s_globals (adv1 s c r) = s_globals s.
Proof. reflexivity. Qed.

(** Structural steps that never need thought. *)
Ltac wp1 :=
  match goal with
  | |- wp _ (bind _ _) _ _ _ => apply wp_bind
  | |- wp _ (ret _) _ _ _ => apply wp_ret
  | |- wp _ peek _ _ _ => apply wp_peek
  | |- wp _ getpos _ _ _ => apply wp_getpos
  | |- wp _ getline _ _ _ => apply wp_getline
  | |- wp _ getfile _ _ _ => apply wp_getfile
  | |- wp _ get_globals _ _ _ => apply wp_get_globals
  | |- wp _ get_sh _ _ _ => apply wp_get_sh
  | |- wp _ (put_sh _) _ _ _ => apply wp_put_sh
  | |- wp _ (insert_global _ _) _ _ _ => apply wp_insert_global
  end; cbv beta iota.
Ltac wps := repeat wp1.
