(** What histories say about the positions of a rule (documentation of cfg-history/src/earley: an event is "zero if none", a
    distance is "u32::MAX if none", an original rule and position are !0 if unknown). *)

From Coq Require Import NArith.
From Verif Require Import HistoryModel.

Definition none_u32 : N := 4294967295.

(** Nothing is known about the position. *)
Definition unknown_dot (d : rule_dot) : Prop :=
  dot_event d = 0%N /\ dot_trace_id d = none_u32 /\ dot_trace_pos d = none_u32 /\ dot_distance d = none_u32.

(** It is position [pos] of the original rule [id], and nothing else is known. *)
Definition traced_dot (id pos : N) (d : rule_dot) : Prop :=
  dot_event d = 0%N /\ dot_trace_id d = id /\ dot_trace_pos d = pos /\ dot_distance d = none_u32.
