(** How a modelled grammar is read as a textbook grammar. *)

From Coq Require Import List Arith NArith Bool String.
From Verif Require Import Base Spec SymbolModel HistoryModel CfgModel.
Import ListNotations.
Local Notation length := List.length.

(** The productions of a grammar: its rules without their histories. *)
Definition prods (g : cfg) : productions :=
  fun A r => exists x, In x (rules g) /\ lhs x = A /\ rhs x = r.

(** Every symbol in a rule was issued by the grammar's symbol source. *)
Definition closed_rules (g : cfg) : Prop :=
  forall x, In x (rules g) -> lhs x < num_syms g /\ Forall (fun s => s < num_syms g) (rhs x).

(** Every symbol in a rule, root or wrapped root was issued by the grammar's symbol source. *)
Definition closed (g : cfg) : Prop :=
  closed_rules g /\
  Forall (fun s => s < num_syms g) (roots g) /\
  Forall (fun w => wr_start w < num_syms g /\ wr_inner w < num_syms g /\
                   wr_end w < num_syms g /\ wr_root w < num_syms g) (wroots g).

(** A length limit that [add_rule] can enforce. *)
Definition good_limit (lim : option nat) : Prop :=
  match lim with
  | None => True
  | Some l => 2 <= l
  end.

(** * Symbol sources *)

(** Operations on a symbol source. *)
Inductive source_op :=
| SNext (name : option string)
| STruncate (new_len : N).

Definition source_step (debug : bool) (w : width) (src : symbol_source) (o : source_op)
    : res symbol_source :=
  match o with
  | SNext name => do (_, s) <- source_next_sym debug w src name; Ok s
  | STruncate n => source_truncate w src n
  end.

(** Truncations never enlarge. *)
Fixpoint shrinking (debug : bool) (w : width) (src : symbol_source) (ops : list source_op) : Prop :=
  match ops with
  | [] => True
  | o :: ops' =>
      match o with STruncate n => (n <= source_num_syms src)%N | SNext _ => True end /\
      match source_step debug w src o with
      | Ok src' => shrinking debug w src' ops'
      | _ => True
      end
  end.

Definition source_wf (src : symbol_source) : Prop :=
  (1 <= next_symbol src)%N /\ source_num_syms src = N.of_nat (length (source_names src)).

(** * Mappings *)

(** The internal symbol of an external one, and the other way round. *)
Definition internal_of (m : mapping) (x : nat) : option nat :=
  match nth_error (to_internal m) x with Some (Some y) => Some y | _ => None end.
Definition external_of (m : mapping) (y : nat) : option nat := nth_error (to_external m) y.

Definition inverse_pair (m : mapping) : Prop :=
  forall x y, internal_of m x = Some y <-> external_of m y = Some x.

(** * Rules *)

(** The order of rules: by left-hand side, then by right-hand side, as words in a dictionary. *)
Definition list_before (a b : list nat) : Prop :=
  (exists y q, b = a ++ y :: q) \/
  exists p x y q q', a = p ++ x :: q /\ b = p ++ y :: q' /\ x < y.
Definition rule_le (a b : rule) : Prop :=
  lhs a < lhs b \/ (lhs a = lhs b /\ (list_before (rhs a) (rhs b) \/ rhs a = rhs b)).

(** What removing repeated neighbours means: of each run of rules with the same key the
    first is kept. *)
Inductive drops_repeats : list rule -> list rule -> Prop :=
| dr_nil : drops_repeats [] []
| dr_run : forall x run l l',
    Forall (fun y => lhs y = lhs x /\ rhs y = rhs x) run ->
    (forall y, hd_error l = Some y -> ~ (lhs y = lhs x /\ rhs y = rhs x)) ->
    drops_repeats l l' -> drops_repeats (x :: run ++ l) (x :: l').

(** All symbols of a named rule have an entry in its name table, as [CfgRule::named] gives. *)
Definition named_ok (a : named_rule) : Prop :=
  nr_lhs a < length (nr_names a) /\ Forall (fun s => s < length (nr_names a)) (nr_rhs a).

(** The name at a symbol. *)
Definition name_at (a : named_rule) (s : nat) : option string :=
  match nth_error (nr_names a) s with Some n => n | None => None end.

