(** Results of modelled functions and small helpers. *)

From Coq Require Import List Arith Bool.
Import ListNotations.

(** [Ok a]: the function returns [a].  [Panic]: the Rust code panics (failed
    assertion, index out of range, unwrap on None, overflow in debug mode).
    [OutOfFuel]: the loop did not finish within the given number of iterations. *)
Inductive res (A : Type) : Type :=
| Ok (a : A)
| Panic
| OutOfFuel.
Arguments Ok {A} a.
Arguments Panic {A}.
Arguments OutOfFuel {A}.

Definition bind {A B : Type} (r : res A) (f : A -> res B) : res B :=
  match r with
  | Ok a => f a
  | Panic => Panic
  | OutOfFuel => OutOfFuel
  end.

Notation "'do' x <- e ; f" := (bind e (fun x => f))
  (at level 200, x pattern, e at level 100, f at level 200).

(** [for b in l { a = f(a, b) }] *)
Fixpoint fold_res {A B : Type} (f : A -> B -> res A) (l : list B) (a : A) : res A :=
  match l with
  | [] => Ok a
  | b :: l' => do a' <- f a b; fold_res f l' a'
  end.

(** Replaces the element at an index; the list is unchanged if out of range. *)
Fixpoint upd {A : Type} (l : list A) (i : nat) (x : A) : list A :=
  match l, i with
  | [], _ => []
  | _ :: l', 0 => x :: l'
  | y :: l', S i' => y :: upd l' i' x
  end.

(** Indexing that panics when out of range: [v[i]]. *)
Definition get_ix {A : Type} (l : list A) (i : nat) : res A :=
  match nth_error l i with
  | Some x => Ok x
  | None => Panic
  end.

(** Assignment that panics when out of range: [v[i] = x], [BitVec::set]. *)
Definition set_ix {A : Type} (l : list A) (i : nat) (x : A) : res (list A) :=
  if i <? length l then Ok (upd l i x) else Panic.

Definition is_nil {A : Type} (l : list A) : bool :=
  match l with [] => true | _ => false end.

Definition mem (x : nat) (l : list nat) : bool := existsb (Nat.eqb x) l.

(** Stable sort by a comparison function: [slice::sort_by].  The standard library's
    merge sort is replaced by insertion sort.  Both give the unique stable order when the
    comparison is a total preorder; for an inconsistent comparison Rust's order is
    unspecified (but still a permutation). *)
Section Sort.
  Context {A : Type} (cmp : A -> A -> comparison).
  Fixpoint insert_sorted (x : A) (l : list A) : list A :=
    match l with
    | [] => [x]
    | y :: l' => match cmp x y with
                 | Gt => y :: insert_sorted x l'
                 | _ => x :: l
                 end
    end.
  Fixpoint sort_by (l : list A) : list A :=
    match l with
    | [] => []
    | x :: l' => insert_sorted x (sort_by l')
    end.
End Sort.

(** Lexicographic comparison of slices: [Ord for [Symbol]]. *)
Fixpoint list_compare (a b : list nat) : comparison :=
  match a, b with
  | [], [] => Eq
  | [], _ => Lt
  | _, [] => Gt
  | x :: a', y :: b' => match Nat.compare x y with
                        | Eq => list_compare a' b'
                        | c => c
                        end
  end.

(** [Vec::dedup] on symbols: keeps the first of each run of equal neighbours. *)
Fixpoint dedup_from (x : nat) (l : list nat) : list nat :=
  match l with
  | [] => []
  | y :: l' => if Nat.eqb x y then dedup_from x l' else y :: dedup_from y l'
  end.
Definition dedup (l : list nat) : list nat :=
  match l with
  | [] => []
  | x :: l' => x :: dedup_from x l'
  end.

Definition sort_nat (l : list nat) : list nat := sort_by Nat.compare l.
