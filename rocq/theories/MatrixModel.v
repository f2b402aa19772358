(** Model of cfg-symbol-bit-matrix/src/symbol_bit_matrix.rs.

    The crate bit-matrix is not part of the repository.  A BitMatrix is modelled as a list of
    rows, and its operations by their documented effect: [set] and indexing panic when out of
    range, [transitive_closure] is Warshall's algorithm in place, [reflexive_closure] sets the
    diagonal. *)

From Coq Require Import List Arith Bool.
From Verif Require Import Base CfgModel.
Import ListNotations.

Definition matrix := list (list bool).

(** symbol_bit_matrix.rs 22-26: new; BitMatrix::new(n, n) *)
Definition mx_new (n : nat) : matrix := repeat (repeat false n) n.

(** symbol_bit_matrix.rs 28-30: set; BitMatrix::set *)
Definition mx_set (m : matrix) (row col : nat) (included : bool) : res matrix :=
  do r <- get_ix m row;
  do r' <- set_ix r col included;
  set_ix m row r'.

(** symbol_bit_matrix.rs 114-123: Index *)
Definition mx_get (m : matrix) (row col : nat) : res bool :=
  do r <- get_ix m row;
  get_ix r col.

(** symbol_bit_matrix.rs 33-38: iter_row_syms; the symbols zipped in are 0, 1, ... *)
Fixpoint row_syms_from (i : nat) (r : list bool) : list nat :=
  match r with
  | [] => []
  | b :: r' => if b then i :: row_syms_from (S i) r' else row_syms_from (S i) r'
  end.
Definition iter_row_syms (m : matrix) (row : nat) : res (list nat) :=
  do r <- get_ix m row;
  Ok (row_syms_from 0 r).

(** BitMatrix::transitive_closure: for every pivot, the rows that have the pivot's bit are
    or-ed with the pivot's row. *)
Definition or_rows (a b : list bool) : list bool := map (fun p => fst p || snd p) (combine a b).
Definition warshall_pivot (m : matrix) (k : nat) : matrix :=
  map (fun row => if nth k row false then or_rows row (nth k m []) else row) m.
Definition transitive_closure (m : matrix) : matrix :=
  fold_left warshall_pivot (seq 0 (List.length m)) m.

(** BitMatrix::reflexive_closure *)
Definition reflexive_closure (m : matrix) : res matrix :=
  fold_res (fun m i => mx_set m i i true) (seq 0 (List.length m)) m.

(** symbol_bit_matrix.rs 179-181: empty_matrix *)
Definition empty_matrix (g : cfg) : matrix := mx_new (num_syms g).

(** symbol_bit_matrix.rs 183-193: direct_derivation_matrix *)
Definition direct_derivation_matrix (g : cfg) : res matrix :=
  fold_res (fun m r => fold_res (fun m s => mx_set m (lhs r) s true) (rhs r) m)
           (rules g) (empty_matrix g).

(** symbol_bit_matrix.rs 152-158: reachability; 195-197: reachability_matrix *)
Definition reachability_matrix (g : cfg) : res matrix :=
  do m <- direct_derivation_matrix g;
  Ok (transitive_closure m).

(** symbol_bit_matrix.rs 144-150: reflexive *)
Definition reflexive (m : matrix) : res matrix := reflexive_closure m.

(** symbol_bit_matrix.rs 199-213: unit_derivation_matrix *)
Definition unit_rule_bit (m : matrix) (r : rule) : res matrix :=
  match rhs r with
  | [s] => if lhs r =? s then Ok m else mx_set m (lhs r) s true
  | _ => Ok m
  end.
Definition unit_derivation_matrix (g : cfg) : res matrix :=
  do m <- fold_res unit_rule_bit (rules g) (empty_matrix g);
  Ok (transitive_closure m).
