(** * Types: model of /repo/src/types.rs. *)
From Verif Require Export Base.
From Coq Require Import String.
Open Scope N_scope.

(** src/types.rs:7-28 [enum Type] *)
Inductive ty :=
| TAny | TNull | TBool | TInt | TFrac | TStr
| TArr (t : ty)
| TTup (ts : list ty)
| TObj.

(** src/types.rs:33-107 [Type::is] *)
Fixpoint ty_is (a b : ty) {struct a} : bool :=
  match a with
  | TAny => match b with TAny => true | _ => false end
  | TNull => match b with TNull => true | _ => false end
  | TBool => match b with TBool => true | _ => false end
  | TInt => match b with TInt => true | _ => false end
  | TFrac => match b with TFrac => true | _ => false end
  | TStr => match b with TStr => true | _ => false end
  | TObj => match b with TObj => true | _ => false end
  | TArr t1 => match b with TArr t2 => ty_is t1 t2 | _ => false end
  | TTup l1 =>
      match b with
      | TTup l2 =>
          if negb (Nat.eqb (List.length l1) (List.length l2)) then false
          else (* tvec1.iter().zip(tvec2.iter()).all(|(t1, t2)| t1.is(t2)) *)
            (fix zip_all (l1 l2 : list ty) {struct l1} : bool :=
               match l1, l2 with
               | t1 :: l1', t2 :: l2' => ty_is t1 t2 && zip_all l1' l2'
               | _, _ => true
               end) l1 l2
      | _ => false
      end
  end.

(** src/types.rs:110-117 [Type::has_any] *)
Fixpoint has_any (t : ty) : bool :=
  match t with
  | TAny => true
  | TArr t => has_any t
  | TTup ts => existsb has_any ts
  | _ => false
  end.

(** src/types.rs:203-231 [impl PartialEq for Type] *)
Fixpoint ty_eqb (a b : ty) {struct a} : bool :=
  match b with
  | TAny => true
  | _ =>
      match a with
      | TAny => true
      | TArr t1 => match b with TArr t2 => ty_eqb t1 t2 | _ => false end
      | TTup l1 => match b with TTup l2 => list_eqb ty_eqb l1 l2 | _ => false end
      | _ => ty_is a b
      end
  end.

(** src/types.rs:145-198 [Type::most_specific].  The [Tup] case is the zip/map/collect of
    lines 165-181: the map closure records in [has_any] whether any component is not maximally
    specific; [collect] into [Option<Vec<_>>] stops at the first [None]. *)
Fixpoint most_specific (a b : ty) {struct a} : option (ty * bool) :=
  match b with
  | TAny => Some (a, has_any a)
  | _ =>
      match a with
      | TAny => Some (b, has_any b)
      | TArr t1 =>
          match b with
          | TArr t2 =>
              match most_specific t1 t2 with
              | Some (t, any) => Some (TArr t, any)
              | None => None
              end
          | _ => None
          end
      | TTup l1 =>
          match b with
          | TTup l2 =>
              if Nat.eqb (List.length l1) (List.length l2) then
                match
                  (fix zip (l1 l2 : list ty) (any : bool) {struct l1} : option (list ty * bool) :=
                     match l1, l2 with
                     | t1 :: l1', t2 :: l2' =>
                         match most_specific t1 t2 with
                         | Some (t, any1) =>
                             match zip l1' l2' (if negb any && any1 then any1 else any) with
                             | Some (ts, any2) => Some (t :: ts, any2)
                             | None => None
                             end
                         | None => None
                         end
                     | _, _ => Some ([], any)
                     end) l1 l2 false
                with
                | Some (ts, any) => Some (TTup ts, any)
                | None => None
                end
              else None
          | _ => None
          end
      | _ => if ty_eqb a b then Some (a, false) else None
      end
  end.

(** src/types.rs:234-260 [impl Display for Type] *)
Fixpoint ty_show (t : ty) : str :=
  match t with
  | TAny => lit "Any"
  | TNull => lit "Null"
  | TBool => lit "Bool"
  | TInt => lit "Int"
  | TFrac => lit "Frac"
  | TStr => lit "Str"
  | TArr t => lit "Arr(" ++ ty_show t ++ lit ")"
  | TTup ts =>
      lit "Tup(" ++
      match ts with
      | [] => []
      | t1 :: ts' => fold_left (fun s t => s ++ lit ", " ++ ty_show t) ts' (ty_show t1)
      end ++ lit ")"
  | TObj => lit "Obj"
  end.
