(** * Drop: dropping a handle with a bounded call stack.

    src/arr.rs:9-23, src/tup.rs:9-23, src/obj.rs:21-36, src/value.rs:12-32: Arr, Tup and Obj are [Arc]s of the values
    they hold and have no [Drop] of their own, so dropping a handle runs the drop glue the compiler generates:
    [Arc::drop] decrements the count, and the last handle drops the inner struct, field by field in the order of
    declaration, a vector from the first element to the last.  The heap is that of Runtime.v, where the same happens
    in single steps (of any thread); here one thread drops one handle, and [frames] is the number of calls of
    [Arc::drop] that fit on its stack (the glue of Vec, Option and Value between two of them is counted with the call
    it belongs to; the glue of Type, which is a tree inside one instance, is not counted).  [None]: no frame is left
    and the process dies (or the handle dangles, which never happens, C38_no_dangling). *)
From Verif Require Export Runtime.
Open Scope N_scope.

Fixpoint each_within (f : list (addr * inst) -> addr -> option (list (addr * inst))) (h : list (addr * inst)) (l : list addr)
  : option (list (addr * inst)) :=
  match l with
  | [] => Some h
  | a :: l' => match f h a with Some h' => each_within f h' l' | None => None end
  end.
(** [Arc::drop] *)
Fixpoint drop_within (frames : nat) (h : list (addr * inst)) (a : addr) {struct frames} : option (list (addr * inst)) :=
  match frames with
  | O => None
  | S n =>
      match hfind h a with
      | None => None
      | Some i =>
          if in_strong i =? 1 then each_within (drop_within n) (hremove h a) (in_kids i)
          else Some (hset_strong h a (in_strong i - 1))
      end
  end.
