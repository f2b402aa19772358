(** Vocabulary for random generation. *)

From Coq Require Import List Arith QArith.
From Verif Require Import Spec.
Import ListNotations.
Local Close Scope Q_scope.

(** A symbol that derives a string which starts with the symbol itself *)
Definition left_recursive (P : productions) (A : nat) : Prop := exists v, derives1 P [A] (A :: v).

(** The productions without those of the symbols in [N]: these stay in the derived string *)
Definition keeping (N : nat -> Prop) (P : productions) : productions := fun A r => ~ N A /\ P A r.

(** The productions where the symbols in [N] derive nothing but the empty string *)
Definition erasing (N : nat -> Prop) (P : productions) : productions :=
  fun A r => (N A /\ r = [] /\ nonterminal P A) \/ (~ N A /\ P A r).

(** [erased N w v]: [v] is [w] without the symbols in [N] *)
Inductive erased (N : nat -> Prop) : list nat -> list nat -> Prop :=
| er_nil : erased N [] []
| er_drop : forall s w v, N s -> erased N w v -> erased N (s :: w) v
| er_keep : forall s w v, ~ N s -> erased N w v -> erased N (s :: w) (s :: v).

(** The forbidden text of a symbol among the negative rules: that of its last rule *)
Definition forbids (l : list (nat * list nat)) (A : nat) (f : list nat) : Prop :=
  exists l1 l2, l = l1 ++ (A, f) :: l2 /\ ~ In A (map fst l2).

(** A negative symbol: one with a negative rule and with productions *)
Definition negative_symbol (l : list (nat * list nat)) (P : productions) (A : nat) : Prop :=
  (exists f, forbids l A f) /\ nonterminal P A.

(** No derived string contains two symbols in [N], when these are not expanded. *)
Definition at_most_one (N : nat -> Prop) (P : productions) (start : nat) : Prop :=
  forall a A b B c, N A -> N B -> ~ derives (keeping N P) [start] (a ++ A :: b ++ B :: c).

(** The characters of a string of symbols *)
Fixpoint chars_of (f : nat -> option nat) (w : list nat) : list nat :=
  match w with
  | [] => []
  | s :: w' => match f s with Some c => c :: chars_of f w' | None => chars_of f w' end
  end.

(** Between a symbol with a negative rule and the next such symbol there are at least as many
    characters as in the forbidden text. *)
Definition far_apart (l : list (nat * list nat)) (P : productions) (tc : nat -> option nat) (start : nat) : Prop :=
  forall a A b B c f, forbids l A f -> nonterminal P A -> negative_symbol l P B -> Forall (terminal P) b ->
    derives (keeping (negative_symbol l P) P) [start] (a ++ A :: b ++ B :: c) -> length f <= length (chars_of tc b).

(** [w] is derived without expanding the negative symbols, which are all that is left beside terminals;
    [result] is [w] without them. *)
Definition negative_sentence (l : list (nat * list nat)) (P : productions) (start : nat) (w result : list nat) : Prop :=
  derives (keeping (negative_symbol l P) P) [start] w /\
  Forall (fun x => terminal P x \/ negative_symbol l P x) w /\
  erased (negative_symbol l P) w result.

(** The text after each negative symbol does not start with its forbidden text. *)
Definition respects (l : list (nat * list nat)) (P : productions) (tc : nat -> option nat) (w : list nat) : Prop :=
  forall u A v f y, w = u ++ A :: v -> nonterminal P A -> forbids l A f -> f <> [] ->
    erased (negative_symbol l P) v y -> ~ exists x, chars_of tc y = f ++ x.

(** The sum of the first [i] weights *)
Fixpoint weight_before (l : list Q) (i : nat) : Q :=
  match l, i with
  | w :: l', S i' => (w + weight_before l' i')%Q
  | _, _ => 0%Q
  end.
