(** Specification: the sentences that a BNF file describes, as strings of names. *)

From Coq Require Import List String.
From Verif Require Import SpecLoad.
Import ListNotations.

(** A name that no rule is for. *)
Definition no_rule_for (rs : list bnf_rule) (x : string) : Prop := forall fs, ~ In (x, fs) rs.

(** [sentence_of rs u w]: the names [u] stand for the names [w], which have no rules. *)
Inductive sentence_of (rs : list bnf_rule) : list string -> list string -> Prop :=
| so_nil : sentence_of rs [] []
| so_word : forall x u w, no_rule_for rs x -> sentence_of rs u w -> sentence_of rs (x :: u) (x :: w)
| so_rule : forall x fs r u v w, In (x, fs) rs -> expands fs r -> sentence_of rs r v -> sentence_of rs u w ->
    sentence_of rs (x :: u) (v ++ w).
