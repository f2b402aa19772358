(** Specification of renaming symbols of a grammar. *)

From Coq Require Import List Arith Permutation.
From Verif Require Import Base Spec HistoryModel CfgModel View.
Import ListNotations.
Local Notation length := List.length.

(** A rule or wrapped root with every symbol replaced by [f]. *)
Definition rename_rule (f : nat -> nat) (r : rule) : rule := mkRule (f (lhs r)) (map f (rhs r)) (hist r).
Definition rename_wrapped (f : nat -> nat) (w : wrapped_root) : wrapped_root :=
  mkWrapped (f (wr_start w)) (f (wr_inner w)) (f (wr_end w)) (f (wr_root w)).

(** [f] is injective on the symbols below [n]. *)
Definition inj_below (n : nat) (f : nat -> nat) : Prop :=
  forall a b, a < n -> b < n -> f a = f b -> a = b.

(** No right-hand side is longer than the grammar's limit. *)
Definition fits (g : cfg) : Prop :=
  match limit g with None => True | Some l => 2 <= l /\ forall x, In x (rules g) -> length (rhs x) <= l end.

(** The symbol source has a name entry for each symbol. *)
Definition names_wf (g : cfg) : Prop := length (names (src g)) = num_syms g.

(** Every root and wrapped root occurs in some rule. *)
Definition used_roots (g : cfg) : Prop :=
  Forall (occurs (prods g)) (roots g) /\
  Forall (fun w => occurs (prods g) (wr_start w) /\ occurs (prods g) (wr_inner w) /\
                   occurs (prods g) (wr_end w) /\ occurs (prods g) (wr_root w)) (wroots g).

(** A comparison function that gives a total (pre)order, as reorder_symbols asks for. *)
Definition total_order (cmp : nat -> nat -> comparison) : Prop :=
  (forall a b, cmp b a = CompOpp (cmp a b)) /\
  (forall a b c, cmp a b <> Gt -> cmp b c <> Gt -> cmp a c <> Gt).
