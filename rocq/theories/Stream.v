(** * Stream: the memory of parse/char_stream.rs: a byte buffer, raw pointers into it, shared cells.

    Parser.v treats a [CharStream] as the list of the characters that are left.  Here it is what it is in the code:
    an [Rc<RefCell<Inner>>] whose [Inner] owns a [String] and an iterator of raw pointers into the heap buffer
    of that [String], with its lifetime extended to ['static] by [transmute].  Reading through a pointer whose
    buffer was freed, or outside of the buffer, or after the unchecked end, is undefined behaviour: [UB]. *)
From Verif Require Export Disk.
From Coq Require Import Lia List.
Import ListNotations.
Open Scope N_scope.

Inductive res (A : Type) :=
| Done (a : A)
| UB              (* undefined behaviour *)
| BorrowPanic.    (* RefCell: already borrowed *)
Arguments Done {A} a.
Arguments UB {A}.
Arguments BorrowPanic {A}.
Definition rbind {A B} (r : res A) (k : A -> res B) : res B :=
  match r with Done a => k a | UB => UB | BorrowPanic => BorrowPanic end.
Notation "'do' x '<-' m ';' k" := (rbind m (fun x => k))
  (at level 200, x name, m at level 100, k at level 200, right associativity).
Notation "'do' ' p '<-' m ';' k" := (rbind m (fun x => match x with p => k end))
  (at level 200, p strict pattern, m at level 100, k at level 200, right associativity).

(** ** The heap: buffers by number; [None] is a freed one. *)
Definition heap := list (option (list byte)).
Definition load (h : heap) (buf off : nat) : res byte :=
  match nth_error h buf with
  | Some (Some bs) => match nth_error bs off with Some b => Done b | None => UB end
  | _ => UB
  end.
Fixpoint upd {A} (l : list A) (i : nat) (x : A) : list A :=
  match l, i with
  | [], _ => []
  | _ :: l', O => x :: l'
  | y :: l', S i' => y :: upd l' i' x
  end.
Definition dealloc (h : heap) (buf : nat) : res heap :=
  match nth_error h buf with
  | Some (Some _) => Done (upd h buf None)
  | _ => UB
  end.

(** ** [std::str::Chars]: two raw pointers (here: a buffer and two offsets). *)
Record chars := mkchars { c_buf : nat; c_cur : nat; c_end : nat }.
(** [slice::Iter<u8>::next] *)
Definition bytes_next (h : heap) (c : chars) : res (option byte * chars) :=
  if Nat.eqb (c_cur c) (c_end c) then Done (None, c)
  else do b <- load h (c_buf c) (c_cur c); Done (Some b, mkchars (c_buf c) (S (c_cur c)) (c_end c)).
(** [bytes.next().unwrap_unchecked()] *)
Definition bytes_next_unchecked (h : heap) (c : chars) : res (byte * chars) :=
  do '(o, c') <- bytes_next h c;
  match o with Some b => Done (b, c') | None => UB end.
(** [char::from_u32_unchecked] *)
Definition char_unchecked (n : N) : res char :=
  if (n <? 55296) || (57344 <=? n) && (n <? 1114112) then Done n else UB.
(** [utf8_acc_cont_byte]: [(ch << 6) | (byte & 0x3F)] *)
Definition acc_cont (ch : N) (b : byte) : N := ch * 64 + b mod 64.
(** [core::str::next_code_point], the body of [Chars::next]. *)
Definition chars_next (h : heap) (c : chars) : res (option char * chars) :=
  do '(o, c1) <- bytes_next h c;
  match o with
  | None => Done (None, c1)
  | Some x =>
      if x <? 128 then do ch <- char_unchecked x; Done (Some ch, c1)
      else
        let init := x mod 32 in
        do '(y, c2) <- bytes_next_unchecked h c1;
        if x <? 224 then do ch <- char_unchecked (acc_cont init y); Done (Some ch, c2)
        else
          do '(z, c3) <- bytes_next_unchecked h c2;
          let y_z := acc_cont (y mod 64) z in
          if x <? 240 then do ch <- char_unchecked (init * 4096 + y_z); Done (Some ch, c3)
          else
            do '(w, c4) <- bytes_next_unchecked h c3;
            do ch <- char_unchecked (init mod 8 * 262144 + acc_cont y_z w); Done (Some ch, c4)
  end.

(** ** parse/char_stream.rs *)

(** char_stream.rs:13-20 [Inner]; [i_contents] is the buffer of the [String]; [i_peeked] is the field of
    [Peekable]. *)
Record inner := mkinner {
  i_file : option str;
  i_contents : nat;
  i_chars : chars;
  i_peeked : option (option char);
  i_line : N;
  i_col : N }.
Inductive borrowed := Unused | Shared (n : nat) | Exclusive.
(** An [Rc<RefCell<Inner>>] allocation. *)
Record cell := mkcell { ce_rc : nat; ce_borrow : borrowed; ce_inner : inner }.
(** All cells ([None]: dropped); the handles ([CharStream]s) the program has, by number: [Some i] a live handle to
    cell [i], [None] a dropped one. *)
Record world := mkworld { w_heap : heap; w_cells : list (option cell); w_handles : list (option nat) }.
Definition W (A : Type) := world -> res (A * world).
Definition wret {A} (a : A) : W A := fun w => Done (a, w).
Definition wbind {A B} (m : W A) (k : A -> W B) : W B := fun w => do '(a, w') <- m w; k a w'.
Notation "'let!' x ':=' m 'in' k" := (wbind m (fun x => k))
  (at level 200, x name, m at level 100, k at level 200, right associativity).
Notation "'let!' ' p ':=' m 'in' k" := (wbind m (fun x => match x with p => k end))
  (at level 200, p strict pattern, m at level 100, k at level 200, right associativity).

Definition get_cell (i : nat) : W cell := fun w =>
  match nth_error (w_cells w) i with Some (Some c) => Done (c, w) | _ => UB end.
Definition put_cell (i : nat) (c : option cell) : W unit := fun w =>
  Done (tt, mkworld (w_heap w) (upd (w_cells w) i c) (w_handles w)).

(** [RefCell::borrow_mut] and the drop of its [RefMut]; [RefCell::borrow] and the drop of its [Ref]. *)
Definition borrow_mut (i : nat) : W inner :=
  let! c := get_cell i in
  match ce_borrow c with
  | Unused => let! _ := put_cell i (Some (mkcell (ce_rc c) Exclusive (ce_inner c))) in wret (ce_inner c)
  | _ => fun _ => BorrowPanic
  end.
Definition release_mut (i : nat) (x : inner) : W unit :=
  let! c := get_cell i in put_cell i (Some (mkcell (ce_rc c) Unused x)).
Definition borrow (i : nat) : W inner :=
  let! c := get_cell i in
  match ce_borrow c with
  | Unused => let! _ := put_cell i (Some (mkcell (ce_rc c) (Shared 1) (ce_inner c))) in wret (ce_inner c)
  | Shared n => let! _ := put_cell i (Some (mkcell (ce_rc c) (Shared (S n)) (ce_inner c))) in wret (ce_inner c)
  | Exclusive => fun _ => BorrowPanic
  end.
Definition release (i : nat) : W unit :=
  let! c := get_cell i in
  put_cell i (Some (mkcell (ce_rc c) (match ce_borrow c with Shared (S (S n)) => Shared (S n) | _ => Unused end)
                           (ce_inner c))).

Definition chars_next_w (c : chars) : W (option char * chars) := fun w =>
  do r <- chars_next (w_heap w) c; Done (r, w).

(** char_stream.rs:43-56 [from_string_impl]: [bs] are the bytes of [contents], whose buffer is not moved when the
    [String] is moved into [Inner]. *)
Definition from_string_impl (file : option str) (bs : list byte) : W unit := fun w =>
  let buf := List.length (w_heap w) in
  let x := mkinner file buf (mkchars buf 0 (List.length bs)) None 1 1 in
  Done (tt, mkworld (w_heap w ++ [Some bs]) (w_cells w ++ [Some (mkcell 1 Unused x)])
                    (w_handles w ++ [Some (List.length (w_cells w))])).

(** char_stream.rs:58-66 [peek], with [Peekable::peek] *)
Definition cs_peek (i : nat) : W (option char) :=
  let! x := borrow_mut i in
  match i_peeked x with
  | Some o => let! _ := release_mut i x in wret o
  | None =>
      let! '(o, cs) := chars_next_w (i_chars x) in
      let! _ := release_mut i (mkinner (i_file x) (i_contents x) cs (Some o) (i_line x) (i_col x)) in
      wret o
  end.
(** char_stream.rs:68-81 [file], [line], [col] *)
Definition cs_file (i : nat) : W (option str) := let! x := borrow i in let! _ := release i in wret (i_file x).
Definition cs_line (i : nat) : W N := let! x := borrow i in let! _ := release i in wret (i_line x).
Definition cs_col (i : nat) : W N := let! x := borrow i in let! _ := release i in wret (i_col x).
(** char_stream.rs:83-91 [set_line], [set_col] *)
Definition cs_set_line (i : nat) (v : N) : W unit :=
  let! x := borrow_mut i in
  release_mut i (mkinner (i_file x) (i_contents x) (i_chars x) (i_peeked x) v (i_col x)).
Definition cs_set_col (i : nat) (v : N) : W unit :=
  let! x := borrow_mut i in
  release_mut i (mkinner (i_file x) (i_contents x) (i_chars x) (i_peeked x) (i_line x) v).
(** char_stream.rs:94-118 [next], with [Peekable::next] *)
Definition cs_next (i : nat) : W (option char) :=
  let! x := borrow_mut i in
  let! '(o, cs) := match i_peeked x with
                   | Some o => wret (o, i_chars x)
                   | None => chars_next_w (i_chars x)
                   end in
  let! _ := release_mut i (mkinner (i_file x) (i_contents x) cs None (i_line x) (i_col x)) in
  match o with
  | Some ch =>
      let! _ := (if ch =? c_nl then
                   let! l := cs_line i in
                   let! _ := cs_set_line i (l + 1) in
                   cs_set_col i 1
                 else
                   let! k := cs_col i in
                   cs_set_col i (k + 1)) in
      wret (Some ch)
  | None => wret None
  end.
(** char_stream.rs:22 [derive(Clone)]: clones the [Rc]. *)
Definition cs_clone (i : nat) : W unit :=
  let! c := get_cell i in
  let! _ := put_cell i (Some (mkcell (S (ce_rc c)) (ce_borrow c) (ce_inner c))) in
  fun w => Done (tt, mkworld (w_heap w) (w_cells w) (w_handles w ++ [Some i])).
(** Drop of handle number [k] to cell [i]: the last one drops [Inner], whose [String] frees its buffer; the
    pointers of [stream] dangle then, but have no drop code. *)
Definition cs_drop (k i : nat) : W unit :=
  let! c := get_cell i in
  let! _ := (match ce_rc c with
             | S (S n) => put_cell i (Some (mkcell (S n) (ce_borrow c) (ce_inner c)))
             | _ => fun w => do h <- dealloc (w_heap w) (i_contents (ce_inner c));
                             Done (tt, mkworld h (upd (w_cells w) i None) (w_handles w))
             end) in
  fun w => Done (tt, mkworld (w_heap w) (w_cells w) (upd (w_handles w) k None)).

(** ** Programs: sequences of operations on handles.  Rust's ownership rules out an operation on a dropped handle or
    one that was never made: it has no effect here. *)
Inductive op :=
| FromString (t : str)                    (* char_stream.rs:39-41; also parser.rs: [load_from_str] *)
| FromFile (path : str) (bs : list byte)  (* char_stream.rs:28-37, the file has these bytes *)
| Clone (k : nat) | Drop (k : nat)
| Peek (k : nat) | Next (k : nat) | Line (k : nat) | Col (k : nat) | File (k : nat).
Inductive out :=
| OUnit | OIo (e : str) | OChar (o : option char) | ONum (n : N) | OFile (f : option str) | OVoid.
Definition on_handle (k : nat) (f : nat -> W out) : W out := fun w =>
  match nth_error (w_handles w) k with Some (Some i) => f i w | _ => Done (OVoid, w) end.
Definition wmap {A B} (g : A -> B) (m : W A) : W B := let! a := m in wret (g a).
Definition exec (o : op) : W out :=
  match o with
  | FromString t => wmap (fun _ => OUnit) (from_string_impl None (utf8 t))
  | FromFile path bs =>
      match read_bytes bs with
      | inl _ => wmap (fun _ => OUnit) (from_string_impl (Some path) bs)
      | inr e => wret (OIo e)
      end
  | Clone k => on_handle k (fun i => wmap (fun _ => OUnit) (cs_clone i))
  | Drop k => on_handle k (fun i => wmap (fun _ => OUnit) (cs_drop k i))
  | Peek k => on_handle k (fun i => wmap OChar (cs_peek i))
  | Next k => on_handle k (fun i => wmap OChar (cs_next i))
  | Line k => on_handle k (fun i => wmap ONum (cs_line i))
  | Col k => on_handle k (fun i => wmap ONum (cs_col i))
  | File k => on_handle k (fun i => wmap OFile (cs_file i))
  end.
Fixpoint exec_all (os : list op) : W (list out) :=
  match os with
  | [] => wret []
  | o :: os' => let! x := exec o in let! xs := exec_all os' in wret (x :: xs)
  end.
Definition world0 : world := mkworld [] [] [].
