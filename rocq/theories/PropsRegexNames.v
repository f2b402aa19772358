(** Property C116: the names of the symbols of a translated regular expression. *)

From Coq Require Import String List Arith NArith Bool Lia.
From Verif Require Import Base Spec SpecRegex SymbolModel HistoryModel CfgModel View RegexModel RegexProof RegexProof2 PropsRegex PropsText LoadLexProof RegexNames.
Import ListNotations.
Local Notation length := List.length.
Local Open Scope string_scope.
Local Open Scope list_scope.

(** The name of a symbol, if it was given one. *)
Definition name (g : cfg) (s : nat) : option string := names_original_name_of (names (src g)) s.

Lemma name_nth : forall g s n, name g s = Some n <-> nth_error (names (src g)) s = Some (Some n).
Proof.
  intros g s n. unfold name, names_original_name_of. destruct (nth_error (names (src g)) s) as [[m|]|]; split; intros H; inversion H; reflexivity.
Qed.

(** ** C116.  Named symbols are those of the bytes of literals, by the number of the byte; the lexer map gives them the class
    that it gives to the byte. *)
Theorem C116_names : forall debug h g lm, cfg_from_hir debug h = Ok (g, lm) -> forall s n, name g s = Some n ->
  exists b, written (TByte b) h /\ n = append "__byte" (string_of_nat (N.to_nat b)) /\
  exists k, In (k, s) (lm_classes lm) /\ (b <> 255%N -> k = [(b, b + 1)%N]).
Proof.
  intros debug h g lm E s n H. apply name_nth in H. destruct (n_name _ _ _ _ (from_hir_named debug h g lm E) s n H) as [b [k [HB [Ek [HI ->]]]]].
  exists b. split; auto. split; [reflexivity|]. exists k. split; auto. intros NB. unfold classes_of_byte in Ek.
  apply N.eqb_neq in NB. rewrite NB in Ek. injection Ek as <-. reflexivity.
Qed.
Print Assumptions C116_names.

(** The other way around: the symbol that has the class of a byte has the byte's name, unless the expression has a character class
    of the same two characters. *)
Theorem C116_bytes : forall debug h g lm b s, cfg_from_hir debug h = Ok (g, lm) -> b <> 255%N -> In ([(b, b + 1)%N], s) (lm_classes lm) ->
  name g s = Some (append "__byte" (string_of_nat (N.to_nat b))) \/
  exists ranges, written (TClass ranges) h /\ forall c, in_ranges ranges c <-> (c = b \/ c = b + 1)%N.
Proof.
  intros debug h g lm b s E NB HI. destruct (n_class _ _ _ _ (from_hir_named debug h g lm E) _ s HI) as [[b' [Ek Hn]]|[r [HC Ek]]].
  - left. apply name_nth. unfold classes_of_byte in Ek. destruct (b' =? 255)%N; [destruct debug; [discriminate|]; injection Ek as <-; lia|]. injection Ek as ->. exact Hn.
  - right. exists r. split; auto. intros c. rewrite <- (proj1 (C50_class_ranges r)), <- Ek. unfold in_ranges. split.
    + intros [lo [hi [[X|[]] HR]]]. injection X as <- <-. lia.
    + intros H. exists b, (b + 1)%N. split; [left; reflexivity|lia].
Qed.
Print Assumptions C116_bytes.

(** No name is given twice. *)
Theorem C116_distinct : forall debug h g lm s s' n, cfg_from_hir debug h = Ok (g, lm) -> name g s = Some n -> name g s' = Some n -> s = s'.
Proof.
  intros debug h g lm s s' n E H H'. apply name_nth in H. apply name_nth in H'. pose proof (from_hir_named debug h g lm E) as N.
  destruct (n_name _ _ _ _ N s n H) as [b [k [_ [Ek [HI ->]]]]]. destruct (n_name _ _ _ _ N s' _ H') as [b' [k' [_ [Ek' [HI' En]]]]].
  assert (b = b') as <-. { unfold byte_name in En. apply append_inj in En. apply nat_text_inj in En. lia. }
  rewrite Ek in Ek'. injection Ek' as <-. pose proof (n_keys _ _ _ _ N) as NK. cbn [tr_classes] in *. clear - HI HI' NK.
  induction (lm_classes lm) as [|[a c] t IH]; [destruct HI|]. cbn in NK. inversion NK as [|? ? N1 N2]; subst. destruct HI as [X|HI], HI' as [Y|HI'].
  - congruence.
  - injection X as -> ->. exfalso. apply N1. apply in_map_iff. exists (k, s'). auto.
  - injection Y as -> ->. exfalso. apply N1. apply in_map_iff. exists (k, s). auto.
  - auto.
Qed.
Print Assumptions C116_distinct.

(** The expression [ab[ab]b]: its class is the class of the byte 97, so there are two symbols and both are named. *)
Example C116_example : exists g lm, cfg_from_hir true (HConcat [HLiteral [97; 98]; HClass [(97, 98)]; HLiteral [98]])%N = Ok (g, lm) /\
  name g 0 = Some "__byte97" /\ name g 1 = Some "__byte98" /\ lm_classes lm = [([(97, 98)]%N, 0); ([(98, 99)]%N, 1)].
Proof. eexists _, _. split; [vm_compute; reflexivity|]. repeat split. Qed.
