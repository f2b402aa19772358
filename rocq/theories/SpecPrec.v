(** Specification of operator expressions with precedence and associativity. *)

From Coq Require Import List Arith.
From Verif Require Import Spec.
Import ListNotations.

Inductive assoc := ALeft | ARight | AGroup.

(** An alternative: its level (0 binds tightest), its associativity and its symbols.
    Occurrences of the operand symbol [E] are its operands. *)
Definition alternative : Type := nat * assoc * list nat.

(** A place in an expression: a symbol, or an operand made of an alternative of level at
    most [k]. *)
Inductive place := Sym (s : nat) | Opd (k : nat).

(** The places of an alternative of level [j].
    - left associative: the leftmost operand may be of the same level, the others are of a
      tighter level;
    - right associative: the same with the rightmost operand;
    - group: operands of every level, up to the loosest one, [top].
    No level is tighter than 0: there the other operands are of level 0 as well. *)
Fixpoint left_places (E j : nat) (l : list nat) : list place :=
  match l with
  | [] => []
  | s :: l' =>
      if s =? E then Opd j :: map (fun x => if x =? E then Opd (j - 1) else Sym x) l'
      else Sym s :: left_places E j l'
  end.

Definition places (E top : nat) (alt : alternative) : list place :=
  let '(j, a, l) := alt in
  match a with
  | ALeft => left_places E j l
  | ARight => rev (left_places E j (rev l))
  | AGroup => map (fun x => if x =? E then Opd top else Sym x) l
  end.

(** [expr P E top alts u w]: the places [u] derive the string of symbols [w].  [P] are the
    productions besides the alternatives. *)
Inductive expr (P : productions) (E top : nat) (alts : list alternative)
    : list place -> list nat -> Prop :=
| ex_nil : expr P E top alts [] []
| ex_keep : forall s u w, expr P E top alts u w -> expr P E top alts (Sym s :: u) (s :: w)
| ex_rule : forall A r u w1 w2,
    P A r -> expr P E top alts (map Sym r) w1 -> expr P E top alts u w2 ->
    expr P E top alts (Sym A :: u) (w1 ++ w2)
| ex_operand : forall u w1 w2,
    expr P E top alts [Opd top] w1 -> expr P E top alts u w2 ->
    expr P E top alts (Sym E :: u) (w1 ++ w2)
| ex_alt : forall k j a l u w1 w2,
    In (j, a, l) alts -> j <= k ->
    expr P E top alts (places E top (j, a, l)) w1 -> expr P E top alts u w2 ->
    expr P E top alts (Opd k :: u) (w1 ++ w2).
